(** Values of the objects built by the operators. *)
From Verif Require Import Base Scalar NetSpec Sums NetAlg ModelArray ModelTN TNInv TNOps TNSpec TNMerge TNDelta TNValue
  TNValue2 TNExact ModelVal ModelOps OpsProofs OpsSpec.
Set Implicit Arguments.
Local Open Scope K_scope.

Section TvalInd.
  Variable S : scalar.
  Variable P : tval S -> Prop.
  Hypothesis HT : forall d, P (VTensor d).
  Hypothesis HN : forall n, (forall k nd x, In (k, nd) (nodes n) -> n_val nd = Some x -> P x) -> P (VNet n).
  Hypothesis HS : forall l, (forall k x, In (k, x) l -> P x) -> P (VSum l).
  Hypothesis HV : forall f v, P v -> P (VView f v).
  Fixpoint tval_ind' (v : tval S) : P v.
  Proof.
    destruct v as [d|n|l|f v].
    - apply HT.
    - apply HN. destruct n as [ns es ad os i]. simpl.
      induction ns as [|[k0 [lg mt vo]] r IH]; intros k nd x I E; [destruct I|].
      assert (Hy : forall y, vo = Some y -> P y).
      { destruct vo as [z|]; [pose proof (tval_ind' z) as Hz|]; intros y Ey; [|discriminate].
        injection Ey as Ey. rewrite <- Ey. exact Hz. }
      destruct I as [I|I]; [|exact (IH k nd x I E)].
      apply Hy. injection I as _ I. rewrite <- I in E. exact E.
    - apply HS. induction l as [|[k0 y] r IH]; intros k x I; [destruct I|].
      pose proof (tval_ind' y) as Hy.
      destruct I as [I|I]; [injection I as _ I; rewrite <- I; exact Hy|exact (IH k x I)].
    - apply HV, tval_ind'.
  Qed.
End TvalInd.

Lemma combine_app_len X Y (a b : list X) (c d : list Y) : length a = length c ->
  combine (a ++ b) (c ++ d) = combine a c ++ combine b d.
Proof.
  revert c; induction a as [|x a IH]; intros [|y c] L; simpl in *; try discriminate; auto. f_equal. apply IH. lia.
Qed.

Section Value.
  Variable S : scalar.
  Add Ring KringO : (kring S).
  Notation tval := (tval S).
  Notation val := (@tval_value S).

  Lemma kopp_one_mul (a : S) : - (1) * a = - a.
  Proof. ring. Qed.

  (** ** sums over all indices *)
  Lemma sumf_flat_map X Y (f : Y -> S) (g : X -> list Y) l : sumf f (flat_map g l) = sumf (fun x => sumf f (g x)) l.
  Proof. rewrite flat_map_concat_map. apply sumf_concat_map. Qed.

  Definition box (legs : list name) (dims : list nat) : list (name * list nat) :=
    combine legs (map (seq 0) dims).
  Lemma keys_box legs : forall dims, length dims = length legs -> keys (box legs dims) = legs.
  Proof.
    induction legs as [|e r IH]; intros [|d q] L; simpl in *; auto; try lia. f_equal. apply IH; lia.
  Qed.
  Lemma box_nodup legs dims a ws : In (a, ws) (box legs dims) -> NoDup ws.
  Proof.
    unfold box. intros I. apply in_combine_r in I. apply in_map_iff in I as (d & <- & _). apply seq_NoDup.
  Qed.
  Lemma all_in_box legs : forall dims o, length dims = length legs ->
    all_in (box legs dims) o = in_shape dims o.
  Proof.
    induction legs as [|e r IH]; intros [|d q] [|v o] L; simpl in *; auto; try lia.
    unfold box in IH. rewrite IH by lia. f_equal.
    apply eq_true_iff_eq. rewrite mem_In, in_seq, Nat.ltb_lt. lia.
  Qed.
  Lemma esum_box_pin legs dims o (f : env (A := name) -> S) s :
    NoDup legs -> length dims = length legs -> in_shape dims o = true ->
    esum (box legs dims) (fun s => kdelta (eqb (map s legs) o) * f s) s = f (upds s legs o).
  Proof.
    intros ND L I. pose proof (@esum_pin_list S name _ (box legs dims) [] o f s) as E.
    rewrite app_nil_r, keys_box in E by auto. rewrite E; auto.
    - rewrite all_in_box by auto. rewrite I. simpl. ring.
    - intros a ws. apply box_nodup.
  Qed.
  Lemma in_shape_length : forall dims o, in_shape dims o = true -> length o = length dims.
  Proof.
    induction dims as [|d r IH]; intros [|i o] I; simpl in *; auto; try discriminate.
    apply andb_true_iff in I as [_ I]. f_equal; auto.
  Qed.
  Lemma esum_box_sum (g : list nat -> S) : forall legs dims s,
    NoDup legs -> length dims = length legs ->
    esum (box legs dims) (fun s => g (map s legs)) s = sumf g (indices dims).
  Proof.
    intros legs; revert g; induction legs as [|e r IH]; intros g [|d q] s ND L; simpl in *; try lia.
    - ring.
    - inversion ND as [|? ? N ND']; subst. rewrite sumf_flat_map. apply sumf_ext. intros v _.
      rewrite sumf_map.
      rewrite <- (IH (fun x => g (v :: x)) q (upd s e v) ND') by lia.
      apply esum_ext; [rewrite keys_box; auto; lia|].
      intros s' R. f_equal. f_equal. destruct R as [_ R]. rewrite R.
      + apply upd_eq.
      + rewrite keys_box by lia. auto.
  Qed.

  (** ** networks with one group of legs *)
  Lemma tn_dom_new (n : tn tval) legs dims : edges n = new_edges legs (map Some dims) ->
    tn_dom n = box legs dims.
  Proof.
    unfold tn_dom. intros ->. unfold new_edges, box. rewrite map_map. simpl.
    revert dims; induction legs as [|e r IH]; intros [|d q]; simpl; auto.
    f_equal. apply IH.
  Qed.


  Notation value := (@tn_value S tval (@tval_value S)).
  Definition terms_prod (n : tn tval) (s : env (A := name)) : S := prodf (term_at s) (tn_terms val n).

  Lemma value_unfold (n : tn tval) legs dims o : edges n = new_edges legs (map Some dims) ->
    value n o = esum (box legs dims) (fun s => kdelta (eqb (map s (opens n)) o) * terms_prod n s) env0.
  Proof. intros E. unfold tn_value, net_value. rewrite (tn_dom_new n legs dims E). reflexivity. Qed.

  Lemma value_group (n : tn tval) legs dims (g : list nat -> S) o :
    edges n = new_edges legs (map Some dims) -> opens n = legs -> NoDup legs -> length dims = length legs ->
    (forall s, terms_prod n s = g (map s legs)) -> in_shape dims o = true ->
    value n o = g o.
  Proof.
    intros E Op ND L G I. rewrite (value_unfold n legs dims o E), Op.
    rewrite esum_box_pin by auto. rewrite G. f_equal. apply upds_map; auto.
    apply in_shape_length in I. lia.
  Qed.

  (** ** conjugation *)
  Lemma conj_sum_terms l : forall q,
    (fix go (l : list (name * tval)) := match l with
                             | [] => Ok []
                             | (k, x) :: r => do y <- v_conj x; do w <- go r; Ok ((k, y) :: w)
                             end) l = Ok q ->
    (forall k x, In (k, x) l -> forall w, v_conj x = Ok w ->
       tval_shape w = tval_shape x /\ forall o, val w o = kconj (val x o)) ->
    map (fun p => tval_shape (snd p)) q = map (fun p => tval_shape (snd p)) l /\
    forall o, sumf (fun p => val (snd p) o) q = kconj (sumf (fun p => val (snd p) o) l).
  Proof.
    induction l as [|[k x] r IH]; intros q E H.
    - inversion E; subst. split; auto. intros o. simpl. symmetry. apply kconj_0.
    - cbn in E. destruct (v_conj x) as [y|] eqn:Ex; [|discriminate]. cbn in E.
      match type of E with (bind ?m _) = _ => destruct m as [w|] eqn:Ew; [|discriminate] end.
      cbn in E. inversion E; subst.
      destruct (H k x (or_introl eq_refl) y Ex) as [H1 H2].
      destruct (IH w eq_refl) as [H3 H4]. { intros k' x' I. apply (H k' x'). right; auto. }
      split.
      + simpl. rewrite H1. f_equal. exact H3.
      + intros o. simpl. rewrite H2, kconj_add. f_equal. apply H4.
  Qed.

  Lemma conj_net_terms l : forall q,
    (fix go (l : list (name * node tval)) :=
                   match l with
                   | [] => Ok []
                   | (k, Node legs mut o) :: r =>
                       match o with
                       | None => Err KeyError
                       | Some x => do y <- v_conj x; do w <- go r; Ok ((k, Node legs mut (Some y)) :: w)
                       end
                   end) l = Ok q ->
    (forall k nd x, In (k, nd) l -> n_val nd = Some x -> forall w, v_conj x = Ok w ->
       tval_shape w = tval_shape x /\ forall o, val w o = kconj (val x o)) ->
    forall s, prodf (term_at s) (map (node_term val) q) = kconj (prodf (term_at s) (map (node_term val) l)).
  Proof.
    induction l as [|[k [lg mt v]] r IH]; intros q E H s.
    - inversion E; subst. simpl. symmetry. apply kconj_1.
    - cbn in E. destruct v as [x|]; [|discriminate]. destruct (v_conj x) as [y|] eqn:Ex; [|discriminate]. cbn in E.
      match type of E with (bind ?m _) = _ => destruct m as [w|] eqn:Ew; [|discriminate] end.
      cbn in E. inversion E; subst.
      destruct (H k _ x (or_introl eq_refl) eq_refl y Ex) as [H1 H2].
      specialize (IH w eq_refl). simpl. rewrite kconj_mul, IH.
      + f_equal. unfold term_at, node_term. simpl. apply H2.
      + intros k' nd' x' I. apply (H k' nd' x'). right; auto.
  Qed.

  Lemma v_conj_value v : forall w, v_conj v = Ok w ->
    tval_shape w = tval_shape v /\ forall o, val w o = kconj (val v o).
  Proof.
    induction v as [d|n IH|l IH|f v IH] using tval_ind'; intros w E.
    - destruct d as [d|]; inversion E; subst; simpl; split; auto. intros o. symmetry. apply kconj_0.
    - cbn in E. match type of E with (bind ?m _) = _ => destruct m as [q|] eqn:Eq; [|discriminate] end.
      cbn in E. inversion E; subst. split; [reflexivity|]. intros o. cbn [tval_value].
      unfold tn_value, net_value, tn_terms, tn_dom. cbn [edges nodes opens].
      rewrite esum_conj. apply esum_ext_all. intros s. rewrite kconj_mul, kconj_delta. f_equal.
      apply (@conj_net_terms (nodes n) q Eq). exact IH.
    - cbn in E. destruct (ts_copy l _) as [t|] eqn:Et; [|discriminate]. cbn in E.
      match type of E with (bind ?m _) = _ => destruct m as [q|] eqn:Eq; [|discriminate] end.
      cbn in E. inversion E; subst. destruct (@conj_sum_terms l q Eq IH) as [H1 H2].
      split; [cbn [tval_shape]; rewrite H1; reflexivity|exact H2].
    - inversion E; subst. split; auto.
  Qed.

  (** ** the networks *)
  Definition grid (dims : list nat) : list (name * edge) := new_edges (range_names (length dims)) (map Some dims).
  Definition one_net k v op (dims : list nat) : tn tval :=
    plus_node' (with_edges empty_tn (grid dims)) k (range_names (length dims)) false v op.
  Lemma add_first k v op dims : tval_shape v = Some (map Some dims) ->
    add_node k None v op (@empty_tn tval) = (one_net k v op dims, Ok k).
  Proof.
    intros Sh. rewrite (@add_node_fresh tval _ k None v op empty_tn (range_names (length dims)) false (map Some dims)); auto.
    - right. repeat split; auto. exists (map Some dims). split; [exact Sh|]. rewrite map_length; auto.
    - rewrite map_length, range_names_length; auto.
    - apply range_names_NoDup.
    - apply range_names_NN.
  Qed.
  Lemma edim_grid (n : tn tval) dims : edges n = grid dims ->
    map (edim n) (range_names (length dims)) = map Some dims.
  Proof.
    intros E. transitivity (map (edim (with_edges (@empty_tn tval) (edges (@empty_tn tval) ++ grid dims)))
      (range_names (length dims))); [|apply edim_new_edges].
    - apply map_ext. intros e. unfold edim. rewrite E. reflexivity.
    - rewrite map_length, range_names_length; auto.
    - apply range_names_NoDup.
    - simpl; auto.
  Qed.
  Lemma keys_grid dims : keys (grid dims) = range_names (length dims).
  Proof. apply keys_new_edges. rewrite map_length, range_names_length; auto. Qed.
  Lemma add_second k v op dims (n : tn tval) : edges n = grid dims -> ~ In k (keys (nodes n)) ->
    tval_shape v = Some (map Some dims) ->
    add_node k None v op n = (plus_node' n k (range_names (length dims)) false v op, Ok k).
  Proof.
    intros E Nk Sh. apply add_node_known; auto.
    - right. repeat split; auto. exists (map Some dims). split; [exact Sh|]. rewrite map_length; auto.
    - rewrite edim_grid; auto.
    - apply range_names_NN.
    - rewrite E, keys_grid. apply incl_refl.
  Qed.
  (** a scalar node *)
  Lemma add_scalar k v op (n : tn tval) : ~ In k (keys (nodes n)) -> tval_shape v = Some [] ->
    add_node k None v op n = (plus_node' n k [] false v op, Ok k).
  Proof.
    intros Nk Sh. apply add_node_known; auto.
    - right. repeat split; auto. exists []. split; [exact Sh|reflexivity].
    - intros a [].
  Qed.

  Lemma terms_plus (n : tn tval) k legs mut v op s :
    terms_prod (plus_node' n k legs mut v op) s = terms_prod n s * val v (map s legs).
  Proof.
    unfold terms_prod, tn_terms, plus_node'. cbn [nodes]. rewrite map_app, prodf_app. f_equal.
    cbn. unfold term_at. cbn. ring.
  Qed.
  Lemma terms_one k v op dims s : terms_prod (one_net k v op dims) s = val v (map s (range_names (length dims))).
  Proof. unfold one_net. rewrite terms_plus. unfold terms_prod. simpl. ring. Qed.
  Lemma grid_shape (n : tn tval) dims : edges n = grid dims -> opens n = range_names (length dims) ->
    tval_shape (VNet n) = Some (map Some dims).
  Proof.
    intros E O. cbn [tval_shape]. f_equal. rewrite O, <- (@edim_grid n dims E). reflexivity.
  Qed.

  Lemma complete_plus (n : tn tval) k legs mut v op : complete (VNet n) -> complete v ->
    complete (VNet (plus_node' n k legs mut v op)).
  Proof.
    intros Cn Cv. inversion Cn as [|n' H E| |]; subst. constructor. intros k' nd I.
    unfold plus_node' in I. cbn [nodes] in I. apply in_app_iff in I as [I|[I|[]]]; [eauto|].
    inversion I; subst. simpl. eauto.
  Qed.
  Lemma complete_one k v op dims : complete v -> complete (VNet (one_net k v op dims)).
  Proof. intros C. apply complete_plus; auto. constructor. intros k' nd []. Qed.

  (** ** the operators *)
  Lemma mul_scalar_r i j t u dims : i <> j ->
    tval_shape t = Some (map Some dims) -> tval_shape u = Some [] ->
    exists v, v_mul (i, t) (j, u) = Ok v /\ tval_shape v = Some (map Some dims) /\
              (forall o, in_shape dims o = true -> val v o = val t o * val u []) /\
              (complete t -> complete u -> complete v).
  Proof.
    intros Ne Sh Su. unfold v_mul, build. cbn [fst snd].
    rewrite (@mbind_eq _ _ _ _ _ _ _ _ (@add_first i t true dims Sh)).
    rewrite add_scalar; auto.
    2:{ simpl. intuition. }
    eexists. split; [reflexivity|]. split.
    - apply grid_shape; simpl; auto. rewrite app_nil_r; auto.
    - split; [|intros Ct Cu; apply complete_plus; auto; apply complete_one; auto]. intros o I. cbn [tval_value].
      apply (@value_group _ (range_names (length dims)) dims (fun x => val t x * val u [])); auto.
      + simpl. rewrite app_nil_r; auto.
      + apply range_names_NoDup.
      + rewrite range_names_length; auto.
      + intros s. rewrite terms_plus, terms_one. reflexivity.
  Qed.
  Lemma mul_scalar_l i j t u dims : i <> j ->
    tval_shape t = Some (map Some dims) -> tval_shape u = Some [] ->
    exists v, v_mul (j, u) (i, t) = Ok v /\ tval_shape v = Some (map Some dims) /\
              (forall o, in_shape dims o = true -> val v o = val u [] * val t o) /\
              (complete t -> complete u -> complete v).
  Proof.
    intros Ne Sh Su. unfold v_mul, build. cbn [fst snd].
    rewrite (@mbind_eq _ _ _ _ _ _ _ _ (@add_first j u true [] Su)).
    rewrite (@add_node_fresh tval _ i None t true _ (range_names (length dims)) false (map Some dims)); auto.
    2:{ simpl. intuition. }
    2:{ right. repeat split; auto. exists (map Some dims). split; [exact Sh|]. rewrite map_length; auto. }
    2:{ rewrite map_length, range_names_length; auto. }
    2:{ apply range_names_NoDup. }
    2:{ apply range_names_NN. }
    eexists. split; [reflexivity|]. split.
    - apply grid_shape; simpl; auto.
    - split.
      2:{ intros Ct Cu. apply complete_plus; auto. pose proof (@complete_one j u true [] Cu) as Q.
          inversion Q as [|n' H E| |]; subst. constructor. exact H. }
      intros o I. cbn [tval_value].
      apply (@value_group _ (range_names (length dims)) dims (fun x => val u [] * val t x)); auto.
      + apply range_names_NoDup.
      + rewrite range_names_length; auto.
      + intros s. rewrite terms_plus. f_equal. apply (@terms_one j u true []).
  Qed.
  Lemma app_inj_len X (a b c d : list X) : length a = length c -> a ++ b = c ++ d -> a = c /\ b = d.
  Proof.
    revert c; induction a as [|x a IH]; intros [|y c] L E; simpl in *; try discriminate; auto.
    inversion E; subst. destruct (IH c ltac:(lia) H1). subst. auto.
  Qed.
  (** two operands of the same shape *)
  Lemma value_diag (n : tn tval) legs dims (g : list nat -> S) o o' :
    edges n = new_edges legs (map Some dims) -> opens n = legs ++ legs -> NoDup legs -> length dims = length legs ->
    (forall s, terms_prod n s = g (map s legs)) -> in_shape dims o = true -> length o' = length dims ->
    value n (o ++ o') = kdelta (eqb o o') * g o.
  Proof.
    intros E Op ND L G I L'. rewrite (value_unfold n legs dims _ E), Op.
    transitivity (esum (box legs dims) (fun s => kdelta (eqb (map s legs) o) * (kdelta (eqb (map s legs) o') * terms_prod n s)) env0).
    - apply esum_ext_all. intros s.
      assert (Q : eqb (map s (legs ++ legs)) (o ++ o') = eqb (map s legs) o && eqb (map s legs) o').
      { apply in_shape_length in I. apply eq_true_iff_eq. rewrite andb_true_iff, !eqb_eq, map_app.
        split; [|intros [-> ->]; auto]. intros Q. apply app_inj_len in Q; [tauto|]. rewrite map_length. lia. }
      rewrite Q, kdelta_and. ring.
    - rewrite esum_box_pin by auto. apply in_shape_length in I. rewrite G, upds_map by (auto; lia). reflexivity.
  Qed.
  Lemma mul_same_shape i j t u dims : i <> j ->
    tval_shape t = Some (map Some dims) -> tval_shape u = Some (map Some dims) ->
    exists v, v_mul (i, t) (j, u) = Ok v /\
              forall o o', in_shape dims o = true -> in_shape dims o' = true ->
                           val v (o ++ o') = kdelta (eqb o o') * (val t o * val u o).
  Proof.
    intros Ne Sh Su. unfold v_mul, build. cbn [fst snd].
    rewrite (@mbind_eq _ _ _ _ _ _ _ _ (@add_first i t true dims Sh)).
    rewrite (@add_second j u true dims); auto.
    2:{ simpl. intuition. }
    eexists. split; [reflexivity|]. intros o o' I I'. cbn [tval_value].
    apply (@value_diag _ (range_names (length dims)) dims (fun x => val t x * val u x)); auto.
    - apply range_names_NoDup.
    - rewrite range_names_length; auto.
    - intros s. rewrite terms_plus, terms_one. reflexivity.
    - apply in_shape_length; auto.
  Qed.
  Lemma norm_value i j t dims c : i <> j -> tval_shape t = Some (map Some dims) -> v_conj t = Ok c ->
    exists v, v_norm_net (i, t) j = Ok v /\
              val v [] = sumf (fun o => val t o * kconj (val t o)) (indices dims).
  Proof.
    intros Ne Sh Ec. unfold v_norm_net. cbn [fst snd]. rewrite Ec. cbn [bind].
    destruct (v_conj_value t Ec) as [Sc Vc]. rewrite Sh in Sc. unfold build.
    rewrite (@mbind_eq _ _ _ _ _ _ _ _ (@add_first i t false dims Sh)).
    rewrite (@add_second j c false dims); auto.
    2:{ simpl. intuition. }
    eexists. split; [reflexivity|]. cbn [tval_value].
    rewrite (value_unfold _ (range_names (length dims)) dims) by reflexivity.
    rewrite <- (esum_box_sum (fun o => val t o * kconj (val t o)) dims env0 (range_names_NoDup (length dims)))
      by (rewrite range_names_length; auto).
    apply esum_ext_all. intros s. rewrite terms_plus, terms_one, Vc. simpl. unfold kdelta. simpl. ring.
  Qed.

  (** ** transposition *)
  Lemma along_inj axes : forall x y, Permutation axes (seq 0%nat (length x)) -> length x = length y ->
    along axes x = along axes y -> x = y.
  Proof.
    intros x y P L E. apply nth_ext with (d := 0%nat) (d' := 0%nat); auto. intros i Hi.
    assert (I : In i axes). { apply (Permutation_in i (Permutation_sym P)). apply in_seq. lia. }
    unfold along in E. revert E I. clear. induction axes as [|a r IH]; intros E I; [destruct I|].
    simpl in E. inversion E. destruct I as [->|I]; auto.
  Qed.
  Lemma transpose_value i t dims axes : tval_shape t = Some (map Some dims) ->
    Permutation axes (seq 0%nat (length dims)) ->
    exists v, v_transpose (i, t) axes = Ok v /\ tval_shape v = Some (map Some (along axes dims)) /\
              (forall o, in_shape dims o = true -> val v (along axes o) = val t o) /\
              (complete t -> complete v).
  Proof.
    intros Sh P. unfold v_transpose, build. cbn [fst snd].
    rewrite (@mbind_eq _ _ _ _ _ _ _ _ (@add_first i t true dims Sh)).
    set (legs := range_names (length dims)). set (n := one_net i t true dims).
    rewrite (@mbind_eq _ _ _ getst _ n n n eq_refl).
    set (os := map (fun a => nth a legs NN) axes).
    assert (Ll : length legs = length dims) by apply range_names_length.
    assert (Ia : forall a, In a axes -> (a < length dims)%nat).
    { intros a I. apply (Permutation_in a P) in I. apply in_seq in I. lia. }
    assert (Em : mapM (fun i => match nth_error (opens n) i with Some e => Ok e | None => Err IndexError end) axes = Ok os).
    { unfold os. clear P. change (opens n) with legs. revert Ia. clear -Ll. induction axes as [|a r IH]; intros Ia; [reflexivity|].
      cbn [mapM map]. rewrite (nth_error_nth' legs NN) by (rewrite Ll; apply Ia; simpl; auto). cbn [bind].
      rewrite IH by (intros b Ib; apply Ia; simpl; auto). reflexivity. }
    rewrite (@mbind_eq _ _ _ _ _ n n os) by (unfold lift; rewrite Em; reflexivity).
    eexists. split; [reflexivity|]. split.
    - cbn [tval_shape with_opens opens]. f_equal. unfold os, along. rewrite !map_map.
      apply map_ext_in. intros a I. specialize (Ia a I).
      pose proof (@edim_grid n dims eq_refl) as Q. fold legs in Q.
      assert (Q2 : nth a (map (edim n) legs) (edim n NN) = nth a (map Some dims) (Some 0%nat)).
      { rewrite Q. apply nth_indep. rewrite map_length; auto. }
      rewrite !map_nth in Q2. exact Q2.
    - split.
      2:{ intros Ct. pose proof (@complete_one i t true dims Ct) as Q. inversion Q as [|n' H E| |]; subst. constructor. exact H. }
      intros o I. cbn [tval_value]. rewrite (value_unfold _ legs dims _) by reflexivity.
      cbn [with_opens opens].
      transitivity (esum (box legs dims) (fun s => kdelta (eqb (map s legs) o) * terms_prod (with_opens n os) s) env0).
      + apply esum_ext_all. intros s. f_equal. f_equal. apply eq_true_iff_eq. rewrite !eqb_eq.
        assert (Q : map s os = along axes (map s legs)).
        { unfold os, along. rewrite map_map. apply map_ext_in. intros a Iaa.
          rewrite (nth_indep _ 0%nat (s NN)) by (rewrite map_length, Ll; auto). rewrite map_nth; auto. }
        rewrite Q. split; [|intros ->; auto]. apply in_shape_length in I. intros Z. apply along_inj in Z; auto.
        * rewrite map_length, Ll. exact P.
        * rewrite map_length; lia.
      + rewrite esum_box_pin; auto; [|apply range_names_NoDup].
        unfold terms_prod. change (tn_terms val (with_opens n os)) with (tn_terms val n).
        change (prodf (term_at ?s) (tn_terms val n)) with (terms_prod n s). unfold n. rewrite terms_one.
        fold legs. rewrite upds_map; auto; [apply range_names_NoDup|]. apply in_shape_length in I. lia.
  Qed.

  (** ** sums of terms *)
  Notation det := (fun sh : shape_t => sh = None \/ exists dims, sh = Some (map Some dims)).
  Lemma fill_det a : forall b, length a = length b ->
    fill_shape (map Some a) (map Some b) = (map Some a, eqb a b).
  Proof.
    induction a as [|x a IH]; intros [|y b] L; try discriminate; auto.
    cbn [map fill_shape]. simpl in L. rewrite IH by lia. cbn [fst snd].
    change (eqb (x :: a) (y :: b)) with ((x =? y) && eqb a b). destruct (x =? y); reflexivity.
  Qed.
  Lemma shape_upd_det curr tmp : det curr -> det tmp ->
    shape_upd curr tmp =
    match tmp, curr with
    | None, _ => (curr, Ok curr)
    | Some _, None => (curr, Ok tmp)
    | Some _, Some _ => (curr, if eqb curr tmp then Ok curr else Err ValueError)
    end.
  Proof.
    intros [->|[a ->]] [->|[b ->]]; auto. cbn [shape_upd]. rewrite !map_length.
    destruct (Nat.eqb_spec (length a) (length b)) as [L|L].
    - rewrite fill_det by auto. cbn [fst snd]. f_equal.
      destruct (eqb_spec a b) as [->|N]; [rewrite eqb_refl; auto|].
      match goal with |- context [if ?q then _ else _] => destruct q eqn:E; auto end. apply (proj1 (eqb_eq _ _)) in E.
      exfalso. apply N. inversion E as [E']. revert E'. clear. revert b; induction a; intros [|y b] E; try discriminate; auto.
      cbn [map] in E. injection E as E1 E2. rewrite E1, (IHa b E2). reflexivity.
    - f_equal. match goal with |- context [if ?q then _ else _] => destruct q eqn:E; auto end. apply (proj1 (eqb_eq _ _)) in E.
      exfalso. apply L. inversion E as [E']. apply (f_equal (@length _)) in E'. rewrite !map_length in E'; auto.
  Qed.
  Lemma shape_all_det l : forall c, det c -> Forall det l ->
    match shape_all l c with
    | Ok c' => det c' /\ (forall sh, In sh (c :: l) -> sh = None \/ sh = c') /\ (c' = None \/ In c' (c :: l))
    | Err e => exists a b, In a (c :: l) /\ In b (c :: l) /\ a <> None /\ b <> None /\ a <> b
    end.
  Proof.
    induction l as [|t r IH]; intros c Dc Dl.
    - simpl. repeat split; auto. intros sh [->|[]]; auto.
    - inversion Dl as [|? ? Dt Dr]; subst. cbn [shape_all]. rewrite (shape_upd_det Dc Dt).
      destruct t as [t|].
      + destruct c as [c|]; cbn [snd].
        * match goal with |- context [if ?q then _ else _] => destruct q eqn:E end; cbn [bind]; [apply (proj1 (eqb_eq _ _)) in E|apply (proj1 (eqb_neq _ _)) in E].
          -- specialize (IH (Some c) Dc Dr). destruct (shape_all r (Some c)) as [c'|e].
             ++ destruct IH as (H1 & H2 & H3). repeat split; auto.
                ** intros sh [Q|[Q|Q]]; [rewrite <- Q; apply H2; left; auto|rewrite <- Q, <- E; apply H2; left; auto|apply H2; right; auto].
                ** destruct H3 as [H3|[H3|H3]]; simpl; auto.
             ++ destruct IH as (a & b & Ha & Hb & H). exists a, b. simpl in *. tauto.
          -- exists (Some c), (Some t). simpl. repeat split; auto; discriminate.
        * cbn [bind]. specialize (IH (Some t) Dt Dr). destruct (shape_all r (Some t)) as [c'|e].
          -- destruct IH as (H1 & H2 & H3). repeat split; auto.
             ++ intros sh [Q|Q]; subst; auto.
             ++ destruct H3 as [H3|H3]; simpl in *; auto.
          -- destruct IH as (a & b & Ha & Hb & H). exists a, b. simpl in *. tauto.
      + cbn [snd bind]. specialize (IH c Dc Dr). destruct (shape_all r c) as [c'|e].
        * destruct IH as (H1 & H2 & H3). repeat split; auto.
          -- intros sh [Q|[Q|Q]]; [rewrite <- Q; apply H2; left; auto|auto|apply H2; right; auto].
          -- destruct H3 as [H3|[H3|H3]]; simpl; auto.
        * destruct IH as (a & b & Ha & Hb & H). exists a, b. simpl in *. tauto.
  Qed.

  Definition shapes (l : list (name * tval)) : list shape_t := map (fun p => tval_shape (snd p)) l.
  Definition sum_inv (t : tsum S) : Prop :=
    NoDup (keys (ts_terms t)) /\ Forall det (shapes (ts_terms t)) /\
    (forall c, ts_cache t = Some c -> shape_all (shapes (ts_terms t)) None = Ok c).

  Lemma ts_shape_eq t : sum_inv t ->
    snd (ts_shape t) = shape_all (shapes (ts_terms t)) None /\
    ts_terms (fst (ts_shape t)) = ts_terms t /\ sum_inv (fst (ts_shape t)) /\
    (forall c, snd (ts_shape t) = Ok c -> ts_cache (fst (ts_shape t)) = Some c).
  Proof.
    intros Inv. pose proof Inv as (H1 & H2 & H3). unfold ts_shape. destruct (ts_cache t) as [c|] eqn:C.
    - cbn. split; [rewrite (H3 c eq_refl); reflexivity|]. split; [reflexivity|]. split; [exact Inv|].
      intros c' E. inversion E; subst; exact C.
    - fold (shapes (ts_terms t)). destruct (shape_all (shapes (ts_terms t)) None) as [c|e] eqn:E; cbn.
      + split; [reflexivity|]. split; [reflexivity|]. split.
        * split; [exact H1|]. split; [exact H2|]. cbn. intros c' E'. inversion E'; subst. exact E.
        * intros c' E'. inversion E'; subst. reflexivity.
      + split; [reflexivity|]. split; [reflexivity|]. split; [exact Inv|discriminate].
  Qed.
  Lemma shape_all_app a b c : shape_all (a ++ b) c = (do x <- shape_all a c; shape_all b x).
  Proof.
    revert c; induction a as [|t r IH]; intros c; cbn; auto.
    destruct (snd (shape_upd c t)); cbn; auto.
  Qed.
  Notation agree t d := (forall k, get k (ts_terms t) = d k).

  Lemma all_have_shapes t d sh : sum_inv t -> agree t d ->
    (all_have d sh <-> forall x, In x (shapes (ts_terms t)) -> x = None \/ x = sh).
  Proof.
    intros (ND & _) A. unfold all_have, shapes. split.
    - intros H x I. apply in_map_iff in I as ([k v] & <- & I). apply (H k). rewrite <- A. apply In_get; auto.
    - intros H k v E. rewrite <- A in E. apply H. apply get_In in E. apply in_map_iff. exists (k, v). auto.
  Qed.

  Lemma settled_det (v : tval) : settled v <-> det (tval_shape v).
  Proof. reflexivity. Qed.
  Lemma shapes_set k (v : tval) l : Forall det (shapes l) -> det (tval_shape v) -> Forall det (shapes (set k v l)).
  Proof.
    intros F D. unfold shapes. apply Forall_forall. intros x I. apply in_map_iff in I as (p & <- & I).
    induction l as [|[k' w] r IH]; simpl in I.
    - destruct I as [<-|[]]. exact D.
    - unfold shapes in F. simpl in F. inversion F; subst. destruct (eqb k k').
      + destruct I as [<-|I]; [exact D|]. rewrite Forall_forall in H2. apply H2. apply in_map_iff. exists p; auto.
      + destruct I as [<-|I]; auto.
  Qed.
  Lemma shapes_del k l : Forall det (shapes l) -> Forall det (shapes (del k l)).
  Proof.
    intros F. unfold shapes in *. apply Forall_forall. intros x I. apply in_map_iff in I as (p & <- & I).
    rewrite Forall_forall in F. apply F. apply in_map_iff. exists p. split; auto.
    revert I. clear. induction l as [|[k' w] r IH]; simpl; auto. destruct (eqb k k'); simpl; intuition.
  Qed.

  Lemma step_spec op t d : sum_inv t -> agree t d -> op_settled op ->
    exists d', sum_spec d op (snd (sum_step op t)) d' /\ agree (fst (sum_step op t)) d' /\
               sum_inv (fst (sum_step op t)).
  Proof.
    intros Inv A Ds. destruct op as [k v|k v|k|]; cbn [sum_step].
    - unfold ts_add. destruct (has k (ts_terms t)) eqn:Hk.
      + exists d. cbn. split; [|split; [exact A|exact Inv]]. apply spec_add_no. left. rewrite <- A. apply has_In, key_get in Hk as [w E]. rewrite E. discriminate.
      + assert (Nk : ~ In k (keys (ts_terms t))) by (intros I; apply has_In in I; congruence).
        assert (Gk : d k = None) by (rewrite <- A; apply get_None; auto).
        assert (Grow : forall l, agree (TSum (ts_terms t ++ [(k, v)]) l) (put d k (Some v))).
        { intros l x. cbn [ts_terms]. unfold put. rewrite get_app. simpl. destruct (eqb_spec x k) as [->|N].
          - destruct (get k (ts_terms t)) eqn:G; auto. apply get_Some_key in G. tauto.
          - rewrite A. destruct (d x); auto. }
        assert (ND : NoDup (keys (ts_terms t ++ [(k, v)]))).
        { rewrite keys_app. apply NoDup_snoc; auto. apply Inv. }
        assert (Fd : Forall det (shapes (ts_terms t ++ [(k, v)]))).
        { unfold shapes. rewrite map_app. apply Forall_app. split; [apply Inv|]. constructor; [exact Ds|constructor]. }
        destruct (tval_shape v) as [sh|] eqn:Sh.
        * destruct (ts_shape_eq Inv) as (E1 & E2 & E3 & E4).
          destruct (ts_shape t) as [t1 r] eqn:Et. cbn [fst snd] in *.
          pose proof (@all_have_shapes t d (Some sh) Inv A) as AH.
          pose proof (@shape_all_det (shapes (ts_terms t)) None (or_introl eq_refl) (proj1 (proj2 Inv))) as SD.
          rewrite <- E1 in SD.
          assert (Dv : det (Some sh)). { rewrite <- Sh. exact Ds. }
          destruct r as [c|e].
          -- destruct SD as (D1 & D2 & D3).
             rewrite (shape_upd_det D1 Dv).
             assert (Ok1 : forall c', snd (shape_upd c (Some sh)) = Ok c' ->
                sum_inv (TSum (ts_terms t1 ++ [(k, v)]) (Some c'))).
             { intros c' Ec. rewrite E2. split; [exact ND|]. split; [exact Fd|]. cbn. intros c2 Q. inversion Q; subst c2.
               unfold shapes. rewrite map_app, shape_all_app. fold (shapes (ts_terms t)). rewrite <- E1. cbn [bind map snd shape_all].
               rewrite Sh, Ec. reflexivity. }
             rewrite (shape_upd_det D1 Dv) in Ok1. rewrite E2 in Ok1. rewrite E2.
             destruct c as [c|].
             ++ match goal with |- context [if ?q then _ else _] => destruct q eqn:Ec end; [apply (proj1 (eqb_eq _ _)) in Ec|apply (proj1 (eqb_neq _ _)) in Ec].
                ** exists (put d k (Some v)). cbn [fst snd]. split; [|split; [apply Grow|apply Ok1; auto]].
                   apply spec_add; auto. right. rewrite Sh. apply AH. intros x I. rewrite <- Ec. apply D2. right; auto.
                ** exists d. cbn [fst snd]. split; [|split; [exact A|]].
                   --- apply spec_add_no. right. rewrite Sh. split; [discriminate|]. rewrite AH. intros H.
                       destruct D3 as [D3|[D3|D3]]; try discriminate. destruct (H _ D3) as [Q|Q]; [discriminate|tauto].
                   --- split; [apply Inv|]. split; [apply Inv|]. cbn. intros c2 Q. inversion Q; subst. symmetry; auto.
             ++ exists (put d k (Some v)). cbn [fst snd]. split; [|split; [apply Grow|apply Ok1; auto]].
                apply spec_add; auto. right. rewrite Sh. apply AH. intros x I. destruct (D2 x (or_intror I)); auto.
          -- destruct SD as (a & b & Ia & Ib & Na & Nb & Nab). exists d. cbn [fst snd].
             split; [|split; [intros x; rewrite E2; apply A|exact E3]].
             apply spec_add_no. right. rewrite Sh. split; [discriminate|]. rewrite AH. intros H.
             destruct Ia as [Ia|Ia]; [congruence|]. destruct Ib as [Ib|Ib]; [congruence|].
             destruct (H a Ia), (H b Ib); congruence.
        * exists (put d k (Some v)). cbn [fst snd]. split; [|split; [apply Grow|]].
          -- apply spec_add; auto.
          -- split; [exact ND|]. split; [exact Fd|]. cbn. intros c E. unfold shapes. rewrite map_app, shape_all_app.
             fold (shapes (ts_terms t)). rewrite (proj2 (proj2 Inv) c E). cbn. rewrite Sh. destruct c; reflexivity.
    - unfold ts_update. destruct (has k (ts_terms t)) eqn:Hk.
      + exists (put d k (Some v)). cbn. split; [|split].
        * apply spec_upd. rewrite <- A. apply has_In, key_get in Hk as [w E]. rewrite E. discriminate.
        * intros x. cbn. unfold put. rewrite get_set. rewrite A. reflexivity.
        * split; [apply keys_set_NoDup, Inv|]. split; [apply shapes_set; [apply Inv|exact Ds]|]. discriminate.
      + exists d. cbn. split; [|split; [exact A|exact Inv]]. apply spec_upd_no. rewrite <- A. apply get_None. intros I. apply has_In in I. congruence.
    - unfold ts_remove. destruct (get k (ts_terms t)) as [w|] eqn:G.
      + exists (put d k None). cbn. split; [|split].
        * apply spec_rem. rewrite <- A, G. discriminate.
        * intros x. cbn. unfold put. destruct (eqb_spec x k) as [->|N]; [apply get_del_eq|]. rewrite get_del_neq by auto. apply A.
        * split; [apply keys_del_NoDup, Inv|]. split; [apply shapes_del, Inv|]. discriminate.
      + exists d. cbn. split; [|split; [exact A|exact Inv]]. apply spec_rem_no. rewrite <- A; auto.
    - destruct (ts_shape_eq Inv) as (E1 & E2 & E3 & E4).
      pose proof (@shape_all_det (shapes (ts_terms t)) None (or_introl eq_refl) (proj1 (proj2 Inv))) as SD.
      rewrite <- E1 in SD. destruct (ts_shape t) as [t1 r]. cbn [fst snd] in *. exists d.
      destruct r as [c|e]; cbn [fst snd]; (split; [|split; [intros x; rewrite E2; apply A|exact E3]]).
      + destruct SD as (D1 & D2 & D3). apply spec_shape.
        * apply (@all_have_shapes t d c Inv A). intros x I. apply D2. right; auto.
        * destruct D3 as [D3|[D3|D3]]; auto. right. unfold shapes in D3. apply in_map_iff in D3 as ([k v] & Q & I).
          exists k, v. split; auto. rewrite <- A. apply In_get; auto. apply Inv.
      + destruct SD as (a & b & Ia & Ib & Na & Nb & Nab). apply spec_shape_no. intros sh H.
        rewrite (@all_have_shapes t d sh Inv A) in H.
        destruct Ia as [Ia|Ia]; [congruence|]. destruct Ib as [Ib|Ib]; [congruence|].
        destruct (H a Ia), (H b Ib); congruence.
  Qed.

  Lemma sum_run_app (a b : list (sum_op S)) t : sum_run (a ++ b) t =
    (fst (sum_run b (fst (sum_run a t))), snd (sum_run a t) ++ snd (sum_run b (fst (sum_run a t)))).
  Proof.
    revert t; induction a as [|op r IH]; intros t; [cbn; destruct (sum_run b t); reflexivity|].
    cbn. rewrite IH. reflexivity.
  Qed.
  Lemma run_spec ops : Forall (@op_settled S) ops ->
    exists d, sum_history ops (snd (sum_run ops (@ts_empty S))) d /\
              agree (fst (sum_run ops (@ts_empty S))) d /\ sum_inv (fst (sum_run ops (@ts_empty S))).
  Proof.
    induction ops as [|op ops IH] using rev_ind; intros F.
    - exists (fun _ => None). split; [constructor|]. split; [reflexivity|]. repeat split; try constructor. discriminate.
    - apply Forall_app in F as [F Fo]. pose proof (Forall_inv Fo) as Ho. destruct (IH F) as (d & H & A & Inv).
      rewrite sum_run_app. cbn [fst snd sum_run]. destruct (step_spec op d Inv A Ho) as (d' & Sp & A' & Inv').
      exists d'. split; [|split]; auto. econstructor; eauto.
  Qed.

  (** ** addition *)
  Lemma ts_add_first k (v : tval) dims : tval_shape v = Some (map Some dims) ->
    ts_add k v (@ts_empty S) = (TSum [(k, v)] (Some (Some (map Some dims))), Ok tt).
  Proof. intros Sh. unfold ts_add, ts_empty. cbn [has get ts_terms]. rewrite Sh. reflexivity. Qed.
  Lemma ts_add_next k (v : tval) dims l : tval_shape v = Some (map Some dims) -> ~ In k (keys l) ->
    ts_add k v (TSum l (Some (Some (map Some dims)))) =
    (TSum (l ++ [(k, v)]) (Some (Some (map Some dims))), Ok tt).
  Proof.
    intros Sh Nk. unfold ts_add. cbn [ts_terms].
    assert (H : has k l = false) by (destruct (has k l) eqn:H; auto; apply has_In in H; tauto).
    rewrite H, Sh. unfold ts_shape. cbn [ts_cache ts_terms].
    rewrite shape_upd_det by (right; eauto). rewrite eqb_refl. reflexivity.
  Qed.
  Lemma ts_add_clash k (v : tval) dims l dims' : tval_shape v = Some (map Some dims) -> ~ In k (keys l) -> dims' <> dims ->
    snd (ts_add k v (TSum l (Some (Some (map Some dims'))))) = Err ValueError.
  Proof.
    intros Sh Nk Nd. unfold ts_add. cbn [ts_terms].
    assert (H : has k l = false) by (destruct (has k l) eqn:H; auto; apply has_In in H; tauto).
    rewrite H, Sh. unfold ts_shape. cbn [ts_cache ts_terms].
    rewrite shape_upd_det by (right; eauto).
    match goal with |- context [if ?q then _ else _] => destruct q eqn:E end; [|reflexivity].
    apply (proj1 (eqb_eq _ _)) in E. exfalso. apply Nd. injection E as E. revert E. clear. revert dims.
    induction dims' as [|x r IH]; intros [|y q] E; try discriminate; auto.
    cbn [map] in E. injection E as E1 E2. rewrite E1, (IH q E2). reflexivity.
  Qed.
  Lemma sum_shape dims : forall l : list (name * tval), l <> [] ->
    (forall k x, In (k, x) l -> tval_shape x = Some (map Some dims)) ->
    tval_shape (VSum l) = Some (map Some dims).
  Proof.
    assert (Z : forall ds, zip_shape (map Some ds) (map Some ds) = Some (map Some ds)).
    { induction ds as [|x r IH]; simpl; auto. rewrite IH, Nat.eqb_refl. reflexivity. }
    assert (Q : forall l : list (name * tval), (forall k x, In (k, x) l -> tval_shape x = Some (map Some dims)) ->
              fold_shape (map (fun p => tval_shape (snd p)) l) (Some (map Some dims)) = Ok (Some (map Some dims))).
    { induction l as [|[k x] r IH]; intros H; [reflexivity|]. cbn [map fold_shape snd].
      rewrite (H k x) by (left; auto). cbn [update_shape]. rewrite Z. cbn [bind]. apply IH. intros k' x' I. apply (H k'). right; auto. }
    intros [|[k x] r] N H; [tauto|]. cbn [tval_shape map fold_shape snd].
    rewrite (H k x) by (left; auto). cbn [update_shape bind]. rewrite Q; auto. intros k' x' I. apply (H k'). right; auto.
  Qed.
  Lemma add_value i j (t u : tval) dims : i <> j ->
    tval_shape t = Some (map Some dims) -> tval_shape u = Some (map Some dims) ->
    exists v, v_add (i, t) (j, u) = Ok v /\ tval_shape v = Some (map Some dims) /\
              (forall o, val v o = val t o + val u o) /\ (complete t -> complete u -> complete v).
  Proof.
    intros Ne St Su. unfold v_add. cbn [fst snd]. rewrite (@ts_add_first i t dims St).
    rewrite (@ts_add_next j u dims _ Su) by (simpl; intuition). cbn [ts_terms app].
    eexists. split; [reflexivity|]. split; [|split].
    - apply sum_shape; [discriminate|]. intros k x [E|[E|[]]]; inversion E; subst; auto.
    - intros o. cbn. ring.
    - intros Ct Cu. apply complete_sum with dims.
      + simpl. constructor; [simpl; intuition|]. constructor; [simpl; tauto|constructor].
      + intros k x [E|[E|[]]]; inversion E; subst; auto.
  Qed.
  Lemma add_same i (t u : tval) : v_add (i, t) (i, u) = Err KeyError.
  Proof.
    assert (H : forall c, ts_add i u (TSum [(i, t)] c) = (TSum [(i, t)] c, Err KeyError)).
    { intros c. unfold ts_add. cbn [ts_terms]. replace (has i [(i, t)]) with true; [reflexivity|].
      symmetry. apply has_In. simpl; auto. }
    unfold v_add. cbn [fst snd].
    assert (E : exists c, ts_add i t (ts_empty S) = (TSum [(i, t)] c, Ok tt)).
    { unfold ts_add. cbn [ts_empty ts_terms has get]. destruct (tval_shape t); cbn; eauto. }
    destruct E as [c E]. rewrite E, H. reflexivity.
  Qed.
  Lemma add_clash i j (t u : tval) ds ds' : i <> j -> ds <> ds' ->
    tval_shape t = Some (map Some ds) -> tval_shape u = Some (map Some ds') ->
    v_add (i, t) (j, u) = Err ValueError.
  Proof.
    intros Ne Nd St Su. unfold v_add. cbn [fst snd]. rewrite (@ts_add_first i t ds St).
    pose proof (@ts_add_clash j u ds' [(i, t)] ds Su ltac:(simpl; intuition) Nd) as Q.
    destruct (ts_add j u _) as [t1 [|e]]; cbn [snd] in Q; congruence.
  Qed.

  (** ** completeness *)
  Lemma complete_ts_copy dims : forall l pre : list (name * tval), NoDup (keys (pre ++ l)) ->
    (forall k x, In (k, x) l -> tval_shape x = Some (map Some dims)) ->
    exists t, ts_copy l (TSum pre (Some (Some (map Some dims)))) = Ok t.
  Proof.
    induction l as [|[k x] r IH]; intros pre ND H; [eexists; reflexivity|].
    cbn [ts_copy]. rewrite ts_add_next.
    - apply IH; [rewrite <- app_assoc; exact ND|]. intros k' x' I. apply (H k'). right; auto.
    - apply (H k). left; auto.
    - rewrite keys_app in ND. simpl in ND. apply NoDup_remove_2 in ND. rewrite in_app_iff in ND. tauto.
  Qed.
  Lemma complete_conj (v : tval) : complete v -> exists w, v_conj v = Ok w /\ complete w.
  Proof.
    induction v as [d|n IH|l IH|f v IH] using tval_ind'; intros C.
    - destruct d; eexists; (split; [reflexivity|constructor]).
    - inversion C as [|n' H E| |]; subst. cbn [v_conj].
      match goal with |- context [bind (?g (nodes n)) _] =>
        assert (Q : exists q, g (nodes n) = Ok q /\ forall k nd, In (k, nd) q -> exists x, n_val nd = Some x /\ complete x) end.
      { clear C. revert IH H. generalize (nodes n). clear n. induction l as [|[k [lg mt o]] r IHl]; intros IH H.
        - exists []. split; [reflexivity|]. intros ? ? [].
        - destruct (H k (Node lg mt o) (or_introl eq_refl)) as (x & Ex & Cx). simpl in Ex. subst o.
          destruct (IH k _ x (or_introl eq_refl) eq_refl Cx) as (w & Ew & Cw).
          destruct IHl as (q & Eq & Cq).
          { intros k' nd' x' I. apply (IH k' nd' x'). right; auto. }
          { intros k' nd' I. apply (H k' nd'). right; auto. }
          rewrite Ew. cbn [bind]. rewrite Eq. cbn [bind]. eexists. split; [reflexivity|].
          intros k' nd' [I|I]; [inversion I; subst; simpl; eauto|eauto]. }
      destruct Q as (q & Eq & Cq). rewrite Eq. cbn [bind]. eexists. split; [reflexivity|]. constructor. exact Cq.
    - inversion C as [| |l' dims ND H E|]; subst. cbn [v_conj].
      assert (Q1 : exists t, ts_copy l (ts_empty S) = Ok t).
      { destruct l as [|[k x] r]; [eexists; reflexivity|]. cbn [ts_copy].
        rewrite (@ts_add_first k x dims) by (apply (H k); left; auto).
        apply complete_ts_copy; [exact ND|]. intros k' x' I. apply (H k'). right; auto. }
      destruct Q1 as (t & Et). rewrite Et. cbn [bind].
      match goal with |- context [bind (?g l) _] =>
        assert (Q : exists q, g l = Ok q /\ keys q = keys l /\
                    forall k y, In (k, y) q -> exists x, In (k, x) l /\ v_conj x = Ok y /\ complete y) end.
      { clear C Et ND. revert IH H. induction l as [|[k x] r IHl]; intros IH H.
        - exists []. repeat split. intros ? ? [].
        - destruct (IH k x (or_introl eq_refl)) as (w & Ew & Cw). { apply (H k x). left; auto. }
          destruct IHl as (q & Eq & Kq & Cq).
          { intros k' x' I. apply (IH k' x'). right; auto. }
          { intros k' x' I. apply (H k' x'). right; auto. }
          rewrite Ew. cbn [bind]. rewrite Eq. cbn [bind]. eexists. split; [reflexivity|]. split; [simpl; rewrite Kq; auto|].
          intros k' y [I|I].
          + inversion I; subst. exists x. simpl; auto.
          + destruct (Cq k' y I) as (x' & I' & E'). exists x'. simpl; auto. }
      destruct Q as (q & Eq & Kq & Cq). rewrite Eq. cbn [bind]. eexists. split; [reflexivity|].
      apply complete_sum with dims; [rewrite Kq; auto|]. intros k y I. destruct (Cq k y I) as (x & Ix & Ex & Cy).
      split; auto. rewrite (proj1 (v_conj_value x Ex)). apply (H k x Ix).
    - eexists. split; [reflexivity|]. constructor. exact C.
  Qed.

  (** ** a * b for any ranks *)
  Definition tail_names (p q : nat) : list name := map (fun i => NI (Z.of_nat i)) (seq p q).
  Lemma tail_names_length p q : length (tail_names p q) = q.
  Proof. unfold tail_names. rewrite map_length, seq_length. reflexivity. Qed.
  Lemma range_split p q : range_names (p + q) = range_names p ++ tail_names p q.
  Proof. unfold range_names, tail_names. rewrite seq_app, map_app. reflexivity. Qed.
  Lemma range_firstn p q : (p <= q)%nat -> firstn p (range_names q) = range_names p.
  Proof.
    intros L. replace q with (p + (q - p))%nat by lia. rewrite range_split, firstn_app, range_names_length, Nat.sub_diag.
    rewrite firstn_O, app_nil_r. rewrite <- (range_names_length p) at 1. apply firstn_all.
  Qed.
  Lemma foreach_app X (f : X -> M (T := tval) unit) a b n n1 :
    foreach f a n = (n1, Ok tt) -> foreach f (a ++ b) n = foreach f b n1.
  Proof.
    revert n; induction a as [|x r IH]; intros n E; cbn in *.
    - inversion E; subst; auto.
    - unfold mbind in *. destruct (f x n) as [n2 [[]|e]]; [|discriminate]. apply IH; auto.
  Qed.
  Lemma new_edges_app la lb da db : length la = length da ->
    new_edges (la ++ lb) (da ++ db) = new_edges la da ++ new_edges lb db.
  Proof.
    intros L. unfold new_edges. rewrite <- map_app. f_equal.
    revert da L; induction la as [|x r IH]; intros [|y q] L; simpl in *; auto; try lia. f_equal. apply IH; lia.
  Qed.
  (** the second operand has the larger rank *)
  Lemma add_wider k v op da db (n : tn tval) : edges n = grid da -> ~ In k (keys (nodes n)) ->
    tval_shape v = Some (map Some (da ++ db)) ->
    add_node k None v op n =
    (plus_node' (with_edges n (grid (da ++ db))) k (range_names (length (da ++ db))) false v op, Ok k).
  Proof.
    intros E Nk Sh. apply add_node_grow; auto.
    - right. repeat split; auto. exists (map Some (da ++ db)). split; [exact Sh|]. rewrite map_length; auto.
    - rewrite keys_grid. apply incl_refl.
    - change (pshape v) with (tval_shape v). rewrite Sh. f_equal. symmetry. apply edim_grid. reflexivity.
    - intros n0 E0. change (pshape v) with (tval_shape v). rewrite Sh. unfold enum.
      rewrite range_names_length, app_length, range_split, seq_app.
      replace (combine (seq 0 (length da) ++ seq (0 + length da) (length db)) (range_names (length da) ++ tail_names (length da) (length db)))
        with (combine (seq 0 (length da)) (range_names (length da)) ++ combine (seq (length da) (length db)) (tail_names (length da) (length db))).
      2:{ rewrite combine_app_len by (rewrite seq_length, range_names_length; auto). reflexivity. }
      rewrite (@foreach_app _ _ _ _ n0 n0).
      + pose proof (@add_legs_fresh tval (map Some (da ++ db)) (tail_names (length da) (length db)) (map Some db) n0 (map Some da) []) as Q.
        rewrite (map_length Some da), tail_names_length in Q.
        rewrite Q.
        * f_equal. unfold grid. rewrite app_length, range_split, map_app, new_edges_app by (rewrite map_length, range_names_length; auto).
          rewrite E0, E. reflexivity.
        * rewrite app_nil_r, map_app. reflexivity.
        * apply map_length.
        * unfold tail_names. apply FinFun.Injective_map_NoDup; [|apply seq_NoDup]. intros a b Q2. inversion Q2. apply Nat2Z.inj; auto.
        * intros e Ie. rewrite E0, E, keys_grid. unfold tail_names, range_names in *. intros I2.
          apply in_map_iff in Ie as (x & <- & Ix). apply in_map_iff in I2 as (y & Q2 & Iy). inversion Q2 as [Q3].
          apply Nat2Z.inj in Q3. apply in_seq in Ix. apply in_seq in Iy. lia.
        * unfold tail_names. intros I. apply in_map_iff in I as (x & Q2 & _). discriminate.
      + pose proof (@add_legs_same tval (map Some (da ++ db)) (range_names (length da)) n0 [] (map Some db)) as Q.
        rewrite range_names_length in Q. apply Q.
        * rewrite (@edim_grid n0 da) by congruence. rewrite map_app. reflexivity.
        * rewrite E0, E, keys_grid. apply incl_refl.
        * apply range_names_NN.
  Qed.
  Lemma value_two (n : tn tval) D ra rb (ga gb : list nat -> S) oa ob :
    edges n = grid D -> opens n = range_names ra ++ range_names rb -> Nat.max ra rb = length D ->
    (forall s, terms_prod n s = ga (map s (range_names ra)) * gb (map s (range_names rb))) ->
    length oa = ra -> length ob = rb ->
    (in_shape (firstn ra D) oa = true) -> in_shape (firstn rb D) ob = true ->
    value n (oa ++ ob) = kdelta (eqb (firstn (Nat.min ra rb) oa) (firstn (Nat.min ra rb) ob)) * (ga oa * gb ob).
  Proof.
    intros E Op Mx G La Lb Ia Ib. rewrite (value_unfold n (range_names (length D)) D _ E), Op.
    set (legs := range_names (length D)).
    assert (Ll : length D = length legs) by (unfold legs; rewrite range_names_length; auto).
    assert (Fa : forall s : env (A := name), map s (range_names ra) = firstn ra (map s legs)).
    { intros s. rewrite firstn_map. unfold legs. rewrite range_firstn by lia. reflexivity. }
    assert (Fb : forall s : env (A := name), map s (range_names rb) = firstn rb (map s legs)).
    { intros s. rewrite firstn_map. unfold legs. rewrite range_firstn by lia. reflexivity. }
    set (h := fun w : list nat => kdelta (eqb (firstn ra w) oa) * kdelta (eqb (firstn rb w) ob) * (ga (firstn ra w) * gb (firstn rb w)) : S).
    transitivity (esum (box legs D) (fun s => h (map s legs)) env0).
    { apply esum_ext_all. intros s. unfold h. rewrite <- Fa, <- Fb, G, <- kdelta_and. f_equal. f_equal.
      apply eq_true_iff_eq. rewrite andb_true_iff, !eqb_eq, map_app.
      split; [|intros [-> ->]; auto]. intros Q. apply app_inj_len in Q; [tauto|]. rewrite map_length, range_names_length. lia. }
    destruct (Nat.le_gt_cases rb ra) as [L|L].
    - (* oa is the whole index *)
      rewrite Nat.max_l in Mx by lia. rewrite Nat.min_r by lia.
      rewrite firstn_all2 in Ia by lia.
      transitivity (esum (box legs D) (fun s => kdelta (eqb (map s legs) oa) * (kdelta (eqb (firstn rb (map s legs)) ob) * (ga (map s legs) * gb (firstn rb (map s legs))))) env0).
      { apply esum_ext_all. intros s. unfold h. rewrite (firstn_all2 (n := ra) (map s legs)) by (rewrite map_length; lia). ring. }
      rewrite esum_box_pin; auto; [|apply range_names_NoDup].
      rewrite upds_map by (try apply range_names_NoDup; lia).
      rewrite (firstn_all2 (n := rb) ob) by lia. destruct (eqb_spec (firstn rb oa) ob) as [->|N]; unfold kdelta; ring.
    - rewrite Nat.max_r in Mx by lia. rewrite Nat.min_l by lia.
      rewrite firstn_all2 in Ib by lia.
      transitivity (esum (box legs D) (fun s => kdelta (eqb (map s legs) ob) * (kdelta (eqb (firstn ra (map s legs)) oa) * (ga (firstn ra (map s legs)) * gb (map s legs)))) env0).
      { apply esum_ext_all. intros s. unfold h. rewrite (firstn_all2 (n := rb) (map s legs)) by (rewrite map_length; lia). ring. }
      rewrite esum_box_pin; auto; [|apply range_names_NoDup].
      rewrite upds_map by (try apply range_names_NoDup; lia).
      rewrite (firstn_all2 (n := ra) oa) by lia.
      destruct (eqb_spec (firstn ra ob) oa) as [->|N].
      + rewrite eqb_refl. unfold kdelta; ring.
      + assert (N2 : eqb oa (firstn ra ob) = false) by (apply eqb_neq; congruence). rewrite N2. unfold kdelta; ring.
  Qed.
  Lemma mul_value i j t u da db : i <> j ->
    tval_shape t = Some (map Some da) -> tval_shape u = Some (map Some db) ->
    (let m := Nat.min (length da) (length db) in firstn m da = firstn m db) ->
    exists v, v_mul (i, t) (j, u) = Ok v /\ tval_shape v = Some (map Some (da ++ db)) /\
              (forall oa ob, in_shape da oa = true -> in_shape db ob = true ->
                 let m := Nat.min (length da) (length db) in
                 val v (oa ++ ob) = kdelta (eqb (firstn m oa) (firstn m ob)) * (val t oa * val u ob)) /\
              (complete t -> complete u -> complete v).
  Proof.
    intros Ne St Su P. unfold v_mul, build. cbn [fst snd].
    rewrite (@mbind_eq _ _ _ _ _ _ _ _ (@add_first i t true da St)). cbn zeta in P.
    assert (Shape : forall (n : tn tval) D, edges n = grid D -> firstn (length da) D = da -> firstn (length db) D = db ->
              opens n = range_names (length da) ++ range_names (length db) -> (length da <= length D)%nat -> (length db <= length D)%nat ->
              tval_shape (VNet n) = Some (map Some (da ++ db))).
    { intros n D E Ea Eb O La Lb. cbn [tval_shape]. f_equal. rewrite O, !map_app.
      pose proof (@edim_grid n D E) as Q. change (edim n) with (edge_dim n) in Q.
      f_equal.
      - rewrite <- (range_firstn La), <- firstn_map, Q, firstn_map, Ea. reflexivity.
      - rewrite <- (range_firstn Lb), <- firstn_map, Q, firstn_map, Eb. reflexivity. }
    destruct (Nat.le_gt_cases (length db) (length da)) as [L|L].
    - rewrite Nat.min_r in P by lia. rewrite (firstn_all2 (n := length db) db) in P by lia.
      assert (Ea : edges (one_net i t true da) = grid da) by reflexivity.
      rewrite (@add_node_known tval _ j None u true (one_net i t true da) (range_names (length db)) false).
      + eexists. split; [reflexivity|]. split; [|split].
        * apply (Shape _ da); auto. apply firstn_all.
        * intros oa ob Ia Ib. cbn zeta. cbn [tval_value].
          apply (@value_two _ da (length da) (length db) (val t) (val u)); auto.
          -- lia.
          -- intros s. rewrite terms_plus, terms_one. reflexivity.
          -- apply in_shape_length; auto.
          -- apply in_shape_length; auto.
          -- rewrite firstn_all; auto.
          -- rewrite P; auto.
        * intros Ct Cu. apply complete_plus; auto. apply complete_one; auto.
      + simpl. intuition.
      + right. repeat split; auto. exists (map Some db). split; [exact Su|]. rewrite map_length; auto.
      + change (pshape u) with (tval_shape u). rewrite Su. f_equal.
        rewrite <- (range_firstn L), <- firstn_map, (@edim_grid _ da Ea), firstn_map, P. reflexivity.
      + apply range_names_NN.
      + rewrite Ea, keys_grid. rewrite <- (range_firstn L). intros e I. rewrite <- (firstn_skipn (length db)). apply in_app_iff. auto.
    - rewrite Nat.min_l in P by lia. rewrite firstn_all in P.
      assert (D : db = da ++ skipn (length da) db) by (rewrite P at 1; symmetry; apply firstn_skipn).
      set (dr := skipn (length da) db) in *. clearbody dr. subst db.
      rewrite (@add_wider j u true da dr); auto.
      2:{ simpl. intuition. }
      eexists. split; [reflexivity|]. split; [|split].
      + apply (Shape _ (da ++ dr)); auto; try lia. apply firstn_all.
      + intros oa ob Ia Ib. cbn zeta. cbn [tval_value].
        apply (@value_two _ (da ++ dr) (length da) (length (da ++ dr)) (val t) (val u)); auto.
        * lia.
        * intros s. rewrite terms_plus. f_equal. apply (@terms_one i t true da).
        * apply in_shape_length; auto.
        * apply in_shape_length; auto.
        * rewrite <- P. auto.
        * rewrite firstn_all. auto.
      + intros Ct Cu. apply complete_plus; auto. pose proof (@complete_one i t true da Ct) as Q.
        inversion Q as [|n' H E| |]; subst. constructor. exact H.
  Qed.

  (** the specification of sums is deterministic *)
  Lemma sum_spec_det (d d1 : name -> option tval) op out e out1 e1 : (forall k, d1 k = d k) ->
    sum_spec d op out e -> sum_spec d1 op out1 e1 -> out1 = out /\ forall k, e1 k = e k.
  Proof.
    intros Q H H1.
    assert (AH : forall sh, all_have d1 sh <-> all_have d sh).
    { intros sh. unfold all_have. split; intros F k v E; apply (F k v); congruence. }
    assert (P : forall k o x, put d1 k o x = put d k o x) by (intros; unfold put; destruct (eqb x k); auto).
    destruct H; inversion H1; clear H1; try subst e1; subst;
      repeat match goal with Z : context [d1 _] |- _ => rewrite Q in Z end; try (split; auto; fail);
      try (exfalso; repeat match goal with Z : context [all_have d1 _] |- _ => rewrite AH in Z end; tauto).
    - match goal with Z : all_have d1 _ |- _ => rewrite AH in Z; rename Z into A1 end.
      split; auto. f_equal.
      assert (U : forall a b : shape_t, all_have d a -> all_have d b -> (exists k v, d k = Some v /\ tval_shape v = b) -> b = None \/ a = b).
      { intros a b Ha Hb (k & v & E & Sb). destruct (Ha k v E); [left|right]; congruence. }
      match goal with Z : sh0 = None \/ _ |- _ => rename Z into B1 end.
      assert (B1' : sh0 = None \/ exists k v, d k = Some v /\ tval_shape v = sh0).
      { destruct B1 as [B1|(k & v & E & F)]; [auto|]. right. exists k, v. rewrite <- Q. auto. }
      destruct H0 as [->|B0], B1' as [->|B2]; auto.
      + destruct (U _ _ H A1 B2); auto.
      + destruct (U _ _ A1 H B0); auto.
      + destruct (U _ _ H A1 B2) as [->|E]; [|congruence]. destruct (U _ _ A1 H B0); auto.
    - exfalso. apply (H2 sh). rewrite AH. auto.
    - exfalso. apply (H sh). rewrite <- AH. auto.
  Qed.
  Lemma sum_history_det (ops : list (sum_op S)) outs d : sum_history ops outs d ->
    forall outs' d', sum_history ops outs' d' -> outs' = outs /\ forall k, d' k = d k.
  Proof.
    induction 1 as [|ops outs d op out e H IH Sp]; intros outs' d' H'.
    - inversion H' as [|? ? ? ? ? ? ? ? E]; subst; auto. exfalso. eapply app_cons_not_nil; eauto.
    - inversion H' as [E|ops1 outs1 d1 op1 out1 e1 H1 Sp1 E]; subst.
      + exfalso. eapply app_cons_not_nil; eauto.
      + apply app_inj_tail in E as [-> ->]. destruct (IH _ _ H1) as [-> Q].
        destruct (@sum_spec_det d d1 op out e out1 d' Q Sp Sp1) as [-> P]. auto.
  Qed.
End Value.
