(** Giving a compiled task other data (set_data) and other fixes (update_fix). *)
From Verif Require Import Base Scalar NetSpec Sums NetAlg ModelArray ArrayProofs ModelTN TNInv TNOps
  TNExact TNSpec TNDelta TNDeltaValue ModelContract ContractFix ContractNet ContractTemplate
  ContractExec ContractMerge ContractMain ContractFlat NameOrder.
Set Implicit Arguments.
Open Scope nat_scope.

(** executing starts by loading the data, so the flag [preprocess] does not matter *)
Lemma load_pairs_pre (S : scalar) inp di dd (st : store S) b :
  load_pairs inp di dd (set_pre st b) =
  do s <- load_pairs inp di dd st; Ok (set_pre s b).
Proof.
  revert dd st; induction di as [|i r IH]; intros [|d q] st; simpl; auto.
  destruct (get i inp); auto. destruct (get d (data st)); auto. apply (IH q (set_arr st a n)).
Qed.
Lemma execute_pre (S : scalar) t (st : store S) : execute t st = execute t (set_pre st false).
Proof.
  unfold execute, load_data. cbn [data set_pre]. rewrite load_pairs_pre.
  destruct (load_pairs _ _ _ st); simpl; auto.
Qed.

(** arrays as the tensors stored in a network *)
#[global] Instance nd_payload (S : scalar) : Payload (nd S) := {
  pshape a := Some (map Some (nd_shape a));
  p_one := nd_scalar k1;
  p_eye d := nd_eye S d;
  p_diag bs := nd_vec (map kdelta bs)
}.

Lemma template_fix_ext (S : scalar) (T U : Type) stage fd (ns : list (name * node T)) (ms : list (name * node U)) dref :
  map (fun p => (fst p, n_legs (snd p))) ns = map (fun p => (fst p, n_legs (snd p))) ms ->
  template_fix stage fd ns dref = template_fix stage fd ms dref.
Proof.
  revert ms dref; induction ns as [|[x a] r IH]; intros [|[y b] q] dref E; simpl in *; try discriminate; auto.
  inversion E as [[E1 E2 E3]]. subst. rewrite E2. destruct (fixed_pos fd 0 (n_legs b)); rewrite (IH q); auto.
Qed.

Section SetData.
  Context {S : scalar} {T : Type} `{PT : Payload T}.
  Implicit Types (x e : name).
  Variable ev : T -> res (nd S).

  (** the network [n] with the arrays [d] in its nodes *)
  Definition with_arrays (n : tn T) (d : list (name * nd S)) : tn (nd S) :=
    TN (map (fun p => (fst p, Node (n_legs (snd p)) (n_mut (snd p)) (get (fst p) d))) (nodes n))
       (edges n) (adj n) (opens n) (idc n).

  Lemma with_arrays_get n d x :
    get x (nodes (with_arrays n d)) =
    match get x (nodes n) with Some v => Some (Node (n_legs v) (n_mut v) (get x d)) | None => None end.
  Proof.
    simpl. induction (nodes n) as [|[y v] r IH]; simpl; auto.
    destruct (eqb_spec x y) as [->|]; auto.
  Qed.
  Lemma with_arrays_keys n d : keys (nodes (with_arrays n d)) = keys (nodes n).
  Proof. unfold keys; simpl. rewrite map_map. auto. Qed.

  Lemma with_arrays_wf n d : wf n -> wf (with_arrays n d).
  Proof.
    intros [W1 W2 W3 W4 W5 W6 W7]. constructor; try (simpl; auto; fail).
    - rewrite with_arrays_keys; auto.
    - intros x v e G I. rewrite with_arrays_get in G. destruct (get x (nodes n)) as [w|] eqn:Gx; [|discriminate].
      inversion G; subst. simpl in I. simpl. eauto.
    - intros x e. simpl (adj _). rewrite W4. split; intros (v & G & I).
      + exists (Node (n_legs v) (n_mut v) (get x d)). rewrite with_arrays_get, G. auto.
      + rewrite with_arrays_get in G. destruct (get x (nodes n)) as [w|] eqn:Gx; [|discriminate].
        inversion G; subst. simpl in I. eauto.
  Qed.

  (** the data fit the network: one array of the right shape for every node, no other entry *)
  Record fits_net (n : tn T) (d : list (name * nd S)) : Prop := {
    fn_keys : Permutation (keys (nodes n)) (keys d);
    fn_shape : forall x v a, get x (nodes n) = Some v -> get x d = Some a ->
      map Some (nd_shape a) = map (edim n) (n_legs v)
  }.

  Lemma with_arrays_ready n d : ready ev n -> fits_net n d -> ready Ok (with_arrays n d).
  Proof.
    intros [R1 R2 R3 R4 R5 R6] [F1 F2]. constructor; auto.
    - apply with_arrays_wf; auto.
    - simpl. destruct (nodes n); [congruence|discriminate].
    - intros x v I. simpl in I. apply in_map_iff in I as [[y w] [Eq I]]. simpl in Eq. inversion Eq; subst. clear Eq.
      assert (Gx := In_get _ _ _ (wf_nodes R1) I).
      assert (K : In x (keys d)) by (eapply Permutation_in; [exact F1|eapply get_Some_key; eauto]).
      apply key_get in K as [a Ga]. simpl. exists a, a. split; auto. split; auto.
      destruct (R6 _ _ I) as (t & b & _ & _ & _ & D). split; [|exact D].
      apply (@map_size _ n). symmetry. eapply F2; eauto.
  Qed.
  Lemma with_arrays_slices n d split : good_slices n split -> good_slices (with_arrays n d) split.
  Proof. intros [G2 G3 G4]. constructor; auto. Qed.

  Lemma with_arrays_task n d split path : ready ev n -> fits_net n d -> good_slices n split ->
    the_task (with_arrays n d) split path = the_task n split path.
  Proof.
    intros R F G. assert (R' := with_arrays_ready R F). assert (G' := @with_arrays_slices n d split G).
    assert (L : map (fun p => (fst p, n_legs (snd p))) (nodes (with_arrays n d)) =
                map (fun p => (fst p, n_legs (snd p))) (nodes n)) by (simpl; rewrite map_map; auto).
    assert (Lw : map (fun p => (fst p, n_legs (snd p))) (nodes (work (with_arrays n d) split)) =
                map (fun p => (fst p, n_legs (snd p))) (nodes (work n split))).
    { destruct (work_spec R G) as (_ & _ & St & _). destruct (work_spec R' G') as (_ & _ & St' & _).
      apply stripped_nodes in St; [|apply (wf_nodes (rd_wf R))].
      apply stripped_nodes in St'; [|apply (wf_nodes (rd_wf R'))].
      apply (f_equal (map (fun q => (fst q, fst (snd q))))) in St, St'. rewrite !map_map in St, St'. cbn [fst snd] in St, St'.
      rewrite St, St'. simpl. rewrite map_map. auto. }
    assert (C1 : template_fix 1 (keys (fd1_of n)) (nodes (with_arrays n d)) AIn = template_fix 1 (keys (fd1_of n)) (nodes n) AIn).
    { apply (template_fix_ext S). auto. }
    assert (D1 : dref1 (with_arrays n d) = dref1 n) by (unfold dref1; change (fd1_of (with_arrays n d)) with (fd1_of n); rewrite C1; auto).
    assert (S1 : cs1 (with_arrays n d) = cs1 n) by (unfold cs1; change (fd1_of (with_arrays n d)) with (fd1_of n); rewrite C1; auto).
    assert (F2 : fd2_of (with_arrays n d) split = fd2_of n split) by reflexivity.
    assert (C2 := @template_fix_ext S _ _ 2 (keys (fd2_of n split)) _ _ (dref1 n) Lw).
    assert (D2 : dref2 (with_arrays n d) split = dref2 n split) by (unfold dref2; rewrite F2, D1, C2; auto).
    assert (S2 : cs2 (with_arrays n d) split = cs2 n split) by (unfold cs2; rewrite F2, D1, C2; auto).
    unfold the_task. rewrite with_arrays_keys, S1, S2, D2. f_equal. f_equal. f_equal. f_equal. f_equal.
    simpl. rewrite map_map. auto.
  Qed.
End SetData.

Section SetData2.
  Context {S : scalar} {T : Type} `{PT : Payload T}.
  Implicit Types (x e : name).
  Variable ev : T -> res (nd S).

  (** the state of a task, whatever the flag [preprocess] is *)
  Definition ready_state (n : tn T) (split : list name) (st : store S) : Prop :=
    good ev n split (set_pre st false).
  Lemma good_ready_state n split st : good ev n split st -> ready_state n split st.
  Proof. intros [D C P]. constructor; auto. simpl; discriminate. Qed.

  Lemma execute_ready_state n split path (st : store S) :
    ready ev n -> good_slices n split -> path_ok n path -> ready_state n split st -> merge_ok n split ->
    exists r st', execute (the_task n split path) st = Ok (r, st') /\ ready_state n split st' /\
      nd_shape r = map (size n) (opens n) /\
      forall pv, (forall t a, ev t = Ok a -> forall idx, in_shape (nd_shape a) idx = true -> nd_at a idx = pv t idx) ->
        forall o, length o = length (opens n) -> nd_at r o = tn_value pv (prune n) o.
  Proof.
    intros R G PO Gd MO. rewrite execute_pre.
    destruct (execute_ok R G path PO Gd MO) as (r & st' & E & G' & Sh & V).
    exists r, st'. split; auto. split; [apply good_ready_state; auto|]. split; auto.
    intros pv PV o L. rewrite V by auto. apply (total_value R G pv PV).
  Qed.
End SetData2.

Section SetData3.
  Context {S : scalar} {T : Type} `{PT : Payload T}.
  Implicit Types (x e : name).
  Variable ev : T -> res (nd S).

  Lemma set_data_ready (n : tn T) split (st : store S) d :
    ready ev n -> fits_net n d -> comparable (keys (nodes n)) \/ str_distinct (keys (nodes n)) ->
    cells_ok n st ->
    ready_state Ok (with_arrays n d) split (set_data d st).
  Proof.
    intros R F C Cl. constructor.
    - cbn [data set_pre set_data with_data]. split.
      + rewrite with_arrays_keys. symmetry. apply py_sorted_perm_eq; auto.
        * apply (wf_nodes (rd_wf R)).
        * apply (fn_keys F).
      + intros x v I. simpl in I. apply in_map_iff in I as [[y w] [Eq I]]. simpl in Eq. inversion Eq; subst. clear Eq.
        assert (K : In x (keys d)).
        { eapply Permutation_in; [apply (fn_keys F)|]. eapply get_Some_key. eapply In_get; eauto. apply (wf_nodes (rd_wf R)). }
        apply key_get in K as [a Ga]. unfold arr_of. simpl. rewrite Ga. auto.
    - exact Cl.
    - simpl. discriminate.
  Qed.
End SetData3.

(** ** other values for fixed edges *)
Section Refix.
  Context {S : scalar} {T : Type} `{PT : Payload T}.
  Implicit Types (x e : name).
  Notation net := (tn T).

  (** [n] with the value of every fixed edge [e] of [L] replaced by [[v e]] *)
  Variable L : name -> bool.
  Variable v : name -> nat.
  Definition rf_edge e (ed : edge) : edge :=
    if L e then Edge (e_dim ed) (option_map (fun _ => [v e]) (e_fix ed)) else ed.
  Definition rf_edges (l : list (name * edge)) : list (name * edge) :=
    map (fun p => (fst p, rf_edge (fst p) (snd p))) l.
  Definition refix (n : net) : net := with_edges n (rf_edges (edges n)).

  Lemma rf_get e l : get e (rf_edges l) = option_map (rf_edge e) (get e l).
  Proof.
    induction l as [|[a ed] r IH]; simpl; auto. destruct (eqb_spec e a) as [->|]; auto.
  Qed.
  Lemma rf_keys l : keys (rf_edges l) = keys l.
  Proof. unfold keys, rf_edges. rewrite map_map. auto. Qed.
  Lemma rf_has e l : has e (rf_edges l) = has e l.
  Proof.
    apply eq_true_iff_eq. rewrite !has_In, rf_keys. tauto.
  Qed.
  Lemma rf_app l m : rf_edges (l ++ m) = rf_edges l ++ rf_edges m.
  Proof. apply map_app. Qed.
  Lemma rf_set e ed l : set e (rf_edge e ed) (rf_edges l) = rf_edges (set e ed l).
  Proof.
    induction l as [|[a ad] r IH]; simpl; auto. destruct (eqb_spec e a) as [->|]; simpl; auto. f_equal; auto.
  Qed.
  Lemma rf_dim e ed : e_dim (rf_edge e ed) = e_dim ed.
  Proof. unfold rf_edge. destruct (L e); auto. Qed.
  Lemma rf_new e d : rf_edge e (Edge d None) = Edge d None.
  Proof. unfold rf_edge. destruct (L e); auto. Qed.

  (** an operation that does not look at the fixes *)
  Definition blind {A} (m : M A) : Prop :=
    forall n : net, m (refix n) = (refix (fst (m n)), snd (m n)).
  Lemma blind_ret A (a : A) : blind (ret a).
  Proof. intros n; auto. Qed.
  Lemma blind_raise A (x : exn) : blind (raise (A := A) x).
  Proof. intros n; auto. Qed.
  Lemma blind_bind A B (m : M A) (f : A -> M B) : blind m -> (forall a, blind (f a)) -> blind (mbind m f).
  Proof.
    intros Hm Hf n. unfold mbind. rewrite Hm. destruct (m n) as [n' [a|]]; simpl; auto. apply Hf.
  Qed.
  Lemma blind_getst A (f : net -> M A) : (forall n, f (refix n) (refix n) = (refix (fst (f n n)), snd (f n n))) ->
    blind (mbind getst f).
  Proof. intros H n. unfold mbind, getst. apply H. Qed.
  Lemma blind_modify (f : net -> net) : (forall n, f (refix n) = refix (f n)) -> blind (modify f).
  Proof. intros H n. unfold modify. rewrite H; auto. Qed.
  Lemma blind_foreach X (f : X -> M unit) l : (forall y, In y l -> blind (f y)) -> blind (foreach f l).
  Proof.
    induction l as [|x r IH]; simpl; intros H; [apply blind_ret|]. apply blind_bind; auto.
  Qed.

  Lemma update_dim1_blind e d : blind (update_dim1 e d).
  Proof.
    apply blind_getst. intros n. simpl (edges (refix n)). rewrite rf_get.
    destruct (get e (edges n)) as [ed|]; simpl; auto. rewrite rf_dim.
    destruct (e_dim ed) as [a|]; simpl.
    - destruct d as [b|]; simpl; auto. destruct (a =? b); auto.
    - unfold modify. cbn [fst snd]. f_equal. unfold refix, with_edges. cbn [edges with_edges nodes adj opens idc]. f_equal. rewrite <- rf_set. f_equal.
      unfold rf_edge. destruct (L e); auto.
  Qed.
  Lemma update_dimension_blind l : blind (update_dimension l).
  Proof. apply blind_foreach. intros; apply update_dim1_blind. Qed.
  Lemma add_edge_blind e d : blind (add_edge e d).
  Proof.
    unfold add_edge. apply blind_getst. intros n.
    assert (Q : forall e', blind ((if has e' (edges n) then match d with None => ret tt | Some _ => update_dimension [(e', d)] end
       else modify (fun n => with_edges n (edges n ++ [(e', Edge d None)]))) ;; ret e')).
    { intros e'. apply blind_bind; [|intros; apply blind_ret]. destruct (has e' (edges n)).
      - destruct d; [apply update_dimension_blind|apply blind_ret].
      - apply blind_modify. intros m. unfold refix, with_edges; cbn [edges nodes adj opens idc]. f_equal. rewrite rf_app. cbn [rf_edges map fst snd]. rewrite rf_new. auto. }
    assert (Hq : forall e', has e' (edges (refix n)) = has e' (edges n)) by (intros; apply rf_has).
    destruct e as [|z|s|l].
    - unfold mbind at 1 2 4 5. cbn [modify ret]. rewrite Hq.
      exact (Q (auto_name (idc n)) (with_idc n (Datatypes.S (idc n)))).
    - unfold mbind at 1 3. cbn [ret]. rewrite Hq. apply Q.
    - unfold mbind at 1 3. cbn [ret]. rewrite Hq. apply Q.
    - unfold mbind at 1 3. cbn [ret]. rewrite Hq. apply Q.
  Qed.
  Lemma graph_connect_blind x es n : graph_connect x es (refix n) = refix (graph_connect x es n).
  Proof.
    unfold graph_connect.
    assert (Q : forall es n, fold_left (fun n e => if has e (edges n) then n else with_edges n (edges n ++ [(e, Edge None None)])) es (refix n)
      = refix (fold_left (fun n e => if has e (edges n) then n else with_edges n (edges n ++ [(e, Edge None None)])) es n)).
    { clear. induction es as [|e r IH]; intros n; simpl; auto. rewrite rf_has. destruct (has e (edges n)); auto.
      rewrite <- IH. f_equal. unfold refix, with_edges; cbn [edges nodes adj opens idc]. f_equal. rewrite rf_app. simpl. rewrite rf_new; auto. }
    rewrite Q. reflexivity.
  Qed.
  Lemma update_node_blind x t : blind (update_node x t).
  Proof.
    apply blind_getst. intros n. simpl (nodes (refix n)). destruct (get x (nodes n)) as [d|]; auto.
    match goal with |- ?m _ = _ => enough (Q : blind m) by exact (Q n) end.
    apply blind_bind; [apply blind_modify; reflexivity|]. intros _.
    destruct (pshape t) as [sh|]; [|apply update_dimension_blind].
    destruct (length (n_legs d) <=? length sh); [apply update_dimension_blind|apply blind_raise].
  Qed.
  Lemma add_node_blind x es t : blind (add_node x es t false).
  Proof.
    apply blind_getst. intros n. simpl (nodes (refix n)). destruct (has x (nodes n)); auto.
    match goal with |- ?m _ = _ => enough (Q : blind m) by exact (Q n) end.
    apply blind_bind.
    { destruct es; [apply blind_ret|]. destruct (pshape t); [apply blind_ret|apply blind_raise]. }
    intros [legs mut]. apply blind_bind; [apply blind_modify; reflexivity|]. intros _.
    apply blind_bind.
    { apply blind_foreach. intros p _. unfold add_leg. destruct (pshape t) as [l|].
      - destruct (nth_error l (fst p)); [|apply blind_raise].
        apply blind_bind; [apply add_edge_blind|intros; apply blind_ret].
      - apply blind_bind; [apply add_edge_blind|intros; apply blind_ret]. }
    intros _. apply blind_bind; [apply blind_modify; intros; apply graph_connect_blind|]. intros _.
    apply blind_bind; [apply update_node_blind|]. intros _. apply blind_bind; intros; apply blind_ret.
  Qed.
  Lemma dim_of_blind e : blind (dim_of e).
  Proof.
    apply blind_getst. intros n. simpl (edges (refix n)). rewrite rf_get.
    destruct (get e (edges n)) as [ed|]; simpl; auto. rewrite rf_dim. destruct (e_dim ed); auto.
  Qed.
  Lemma delta_open_blind l cnt : blind (delta_open l cnt).
  Proof.
    revert cnt; induction l as [|[i e] r IH]; intros cnt; simpl; [apply blind_ret|].
    destruct (get e cnt) as [k|]; auto.
    apply blind_bind; [apply dim_of_blind|]. intros d.
    apply blind_bind; [apply add_node_blind|]. intros _.
    apply blind_bind; [apply blind_modify; reflexivity|]. intros _. apply IH.
  Qed.
  Lemma delta_open_keys l cnt n n' c :
    delta_open l cnt n = (n', Ok c) -> forall e, In e (keys c) -> In e (keys cnt) \/ In e (map snd l).
  Proof.
    revert cnt n; induction l as [|[i e] r IH]; intros cnt n E a I; simpl in E.
    - inversion E; subst; auto.
    - destruct (get e cnt) as [k|].
      + unfold mbind in E. destruct (dim_of e n) as [n1 [d|]]; [|discriminate].
        destruct (add_node _ _ _ _ n1) as [n2 [w|]]; [|discriminate]. cbn [modify] in E.
        destruct (IH _ _ E _ I) as [Q|Q]; [|simpl; auto].
        apply keys_set_In in Q as [<-|Q]; simpl; auto.
      + destruct (IH _ _ E _ I) as [Q|Q]; [|simpl; auto].
        apply keys_set_In in Q as [<-|Q]; simpl; auto.
  Qed.
  Lemma delta_fix_blind old p : L (fst p) = false -> blind (delta_fix old p).
  Proof.
    destruct p as [e k]. cbn [fst]. intros Le. apply blind_getst. intros n. simpl (edges (refix n)). rewrite rf_get.
    destruct (get e (edges n)) as [ed|]; cbn [option_map]; auto.
    assert (Q : rf_edge e ed = ed) by (unfold rf_edge; rewrite Le; auto). rewrite Q.
    match goal with |- ?m _ = _ => enough (Qm : blind m) by exact (Qm n) end.
    destruct (e_fix ed) as [fx|].
    - apply blind_bind; [apply dim_of_blind|]. intros d.
      apply blind_bind.
      { apply blind_modify. intros m. unfold refix, with_edges; cbn [edges nodes adj opens idc]. f_equal. rewrite <- rf_set, rf_new. auto. }
      intros _. apply blind_bind; [apply add_node_blind|intros; apply blind_ret].
    - destruct (negb (mem e old) && (k =? 0)); [|apply blind_ret].
      apply blind_bind; [apply dim_of_blind|]. intros d.
      apply blind_bind; [apply add_node_blind|intros; apply blind_ret].
  Qed.
  Lemma enum_snd (A : Type) (l : list A) : map snd (enum l) = l.
  Proof.
    unfold enum. generalize 0. induction l as [|a r IH]; intros k; simpl; auto. f_equal. apply IH.
  Qed.
  Lemma complete_delta_blind n : (forall e, In e (opens n) -> L e = false) ->
    complete_delta (refix n) = (refix (fst (complete_delta n)), snd (complete_delta n)).
  Proof.
    intros Lo.
    set (m1 := match nodes n with [] => (let! _ := add_node star (Some []) p_one false in ret tt) | _ :: _ => ret tt end).
    set (body := m1 ;; let! cnt := delta_open (enum (opens n)) [] in foreach (delta_fix (map snd (adj n))) cnt).
    assert (E1 : complete_delta n = if has star (nodes n) then (n, Ok tt) else body n).
    { unfold complete_delta, body, m1, mbind at 1, getst. destruct (has star (nodes n)); reflexivity. }
    assert (E2 : complete_delta (refix n) = if has star (nodes n) then (refix n, Ok tt) else body (refix n)).
    { unfold complete_delta, body, m1, mbind at 1, getst. cbn [nodes refix with_edges]. destruct (has star (nodes n)); reflexivity. }
    rewrite E1, E2. destruct (has star (nodes n)); auto.
    assert (B1 : blind m1).
    { unfold m1. destruct (nodes n); [|apply blind_ret]. apply blind_bind; [apply add_node_blind|intros; apply blind_ret]. }
    unfold body, mbind at 1 3 5. rewrite B1. destruct (m1 n) as [n1 [u|]]; cbn [fst snd]; auto.
    unfold mbind. rewrite delta_open_blind. destruct (delta_open (enum (opens n)) [] n1) as [n2 [c|]] eqn:Ed; cbn [fst snd]; auto.
    apply blind_foreach. intros [e k] I. apply delta_fix_blind. apply Lo. cbn [fst].
    destruct (@delta_open_keys _ _ _ _ _ Ed e) as [Q|Q]; [apply in_map_iff; exists (e, k); auto|destruct Q|].
    rewrite enum_snd in Q. auto.
  Qed.
End Refix.

Section UpdateFix.
  Context {S : scalar} {T : Type} `{PT : Payload T}.
  Implicit Types (x e : name).
  Notation net := (tn T).
  Variable ev : T -> res (nd S).
  Variable L : name -> bool.
  Variable v : name -> nat.
  Notation refix := (refix L v).

  Lemma refix_get (n : net) e : get e (edges (refix n)) = option_map (rf_edge L v e) (get e (edges n)).
  Proof. apply rf_get. Qed.
  Lemma refix_fixedb (n : net) e : fixedb (refix n) e = fixedb n e.
  Proof.
    unfold fixedb. rewrite refix_get. destruct (get e (edges n)) as [ed|]; simpl; auto.
    unfold rf_edge. destruct (L e), (e_fix ed); auto.
  Qed.
  Lemma refix_edim (n : net) e : edim (refix n) e = edim n e.
  Proof. unfold edim. rewrite refix_get. destruct (get e (edges n)) as [ed|]; simpl; auto. apply rf_dim. Qed.
  Lemma refix_size (n : net) e : size (refix n) e = size n e.
  Proof. unfold size. rewrite refix_edim. auto. Qed.

  (** the new values are in range *)
  Definition in_range (n : net) : Prop := forall e, L e = true -> fixedb n e = true -> v e < size n e.

  Lemma refix_wf (n : net) : wf n -> in_range n -> wf (refix n).
  Proof.
    intros W IR. destruct W as [W1 W2 W3 W4 W5 W6 W7]. constructor; auto.
    - simpl. rewrite rf_keys. auto.
    - simpl. setoid_rewrite rf_keys. auto.
    - simpl. rewrite rf_keys. auto.
    - intros e ed fx Ge F. rewrite refix_get in Ge. destruct (get e (edges n)) as [ed0|] eqn:G0; [|discriminate].
      simpl in Ge. inversion Ge; subst. rewrite rf_dim. unfold rf_edge in F. destruct (L e) eqn:Le; [|eauto].
      simpl in F. destruct (e_fix ed0) as [fx0|] eqn:F0; [|discriminate]. inversion F; subst.
      destruct (W7 _ _ _ G0 F0) as (d & D & _). exists d. split; auto. constructor; auto.
      assert (Q := IR e Le). unfold fixedb, size, edim in Q. rewrite G0, F0, D in Q. auto.
  Qed.
  Lemma refix_ready (n : net) : ready ev n -> in_range n -> ready ev (refix n).
  Proof.
    intros R IR. destruct R as [R1 R2 R3 R4 R5 R6]. constructor; auto.
    - apply refix_wf; auto.
    - intros e I. rewrite refix_fixedb. apply R4; auto.
    - intros e ed fx Ge F. rewrite refix_get in Ge. destruct (get e (edges n)) as [ed0|] eqn:G0; [|discriminate].
      simpl in Ge. inversion Ge; subst. unfold rf_edge in F. destruct (L e); [|eauto].
      simpl in F. destruct (e_fix ed0); [|discriminate]. inversion F; eauto.
    - intros x d I. destruct (R6 _ _ I) as (t & a & E1 & E2 & E3 & E4). exists t, a. split; auto. split; auto.
      split.
      + rewrite E3. apply map_ext. intros; symmetry; apply refix_size.
      + intros e Ie. rewrite refix_edim, refix_size. auto.
  Qed.
  Lemma refix_slices (n : net) split : good_slices n split -> good_slices (refix n) split.
  Proof.
    intros [G2 G3 G4]. constructor; auto.
    - intros e I. rewrite refix_fixedb. auto.
    - intros e I. rewrite refix_size. auto.
  Qed.

  Lemma refix_fd1_keys (n : net) : keys (fd1_of (refix n)) = keys (fd1_of n).
  Proof.
    unfold fd1_of; simpl. induction (edges n) as [|[e ed] r IH]; simpl; auto.
    rewrite !keys_app, IH. f_equal. unfold rf_edge. destruct (L e), (e_fix ed); auto.
  Qed.
  Lemma refix_live (n : net) : live (refix n) = live n.
  Proof.
    unfold live. rewrite !(keys_filter_map (fun e => negb (fixedb _ e) && attachedb _ e)).
    simpl edges. rewrite rf_keys. apply filter_ext. intros e. rewrite refix_fixedb. auto.
  Qed.
  Lemma refix_fd2 (n : net) split : fd2_of (refix n) split = fd2_of n split.
  Proof.
    unfold fd2_of. rewrite refix_live. apply map_ext. intros e. rewrite refix_size. auto.
  Qed.
  Lemma refix_rest (n : net) split l : rest_legs (refix n) split l = rest_legs n split l.
  Proof. unfold rest_legs. apply filter_ext. intros e. unfold gone. rewrite refix_fixedb. auto. Qed.

  Lemma singles_dlen (d d' : list (name * list nat)) :
    (forall e vs, In (e, vs) d -> exists w, vs = [w]) -> dlen (d ++ d') = dlen d'.
  Proof.
    induction d as [|[e vs] r IH]; intros H; simpl; auto.
    destruct (H e vs (or_introl eq_refl)) as [w ->]. simpl. fold (dlen (r ++ d')). rewrite IH; [lia|].
    intros a us I; apply (H a us); simpl; auto.
  Qed.

  Lemma refix_task (n : net) split path : ready ev n -> in_range n -> good_slices n split ->
    the_task (refix n) split path = with_fix (the_task n split path) (the_fix (refix n) split).
  Proof.
    intros R IR G. assert (R' := refix_ready R IR). assert (G' := refix_slices G).
    assert (Lw : map (fun p => (fst p, n_legs (snd p))) (nodes (work (refix n) split)) =
                map (fun p => (fst p, n_legs (snd p))) (nodes (work n split))).
    { destruct (work_spec R G) as (_ & _ & St & _). destruct (work_spec R' G') as (_ & _ & St' & _).
      apply stripped_nodes in St; [|apply (wf_nodes (rd_wf R))].
      apply stripped_nodes in St'; [|apply (wf_nodes (rd_wf R'))].
      apply (f_equal (map (fun q => (fst q, fst (snd q))))) in St, St'. rewrite !map_map in St, St'. cbn [fst snd] in St, St'.
      rewrite St, St'. simpl. apply map_ext. intros p. f_equal. apply filter_ext. intros e. rewrite refix_fixedb; auto. }
    assert (D1 : dref1 (refix n) = dref1 n) by (unfold dref1; rewrite refix_fd1_keys; auto).
    assert (S1 : cs1 (refix n) = cs1 n) by (unfold cs1; rewrite refix_fd1_keys; auto).
    assert (C2 := @template_fix_ext S _ _ 2 (keys (fd2_of n split)) _ _ (dref1 n) Lw).
    assert (D2 : dref2 (refix n) split = dref2 n split) by (unfold dref2; rewrite refix_fd2, D1, C2; auto).
    assert (S2 : cs2 (refix n) split = cs2 n split) by (unfold cs2; rewrite refix_fd2, D1, C2; auto).
    unfold the_task, with_fix. cbn [t_cmds t_out t_inputs t_shape t_opens t_sub t_cnt t_len].
    rewrite S1, S2, D2. f_equal.
    - f_equal. f_equal. f_equal. f_equal. apply map_ext. intros p. apply refix_rest.
    - apply map_ext. intros e. apply refix_size.
    - rewrite (the_fix_entries R' G'), (the_fix_entries R G), !entries_length, !singles_dlen, refix_fd2; auto.
      + intros e vs I. apply (fd1_single R) in I as (w & -> & _). eauto.
      + intros e vs I. apply (fd1_single R') in I as (w & -> & _). eauto.
  Qed.

  (** [fx] is what update_fix reads from the network it is given *)
  Lemma update_entries k fx d d' (st : store S) :
    (forall e vs, In (e, vs) d -> (exists w ws, fx e = Some (Some (w :: ws)) /\ In (e, w :: ws) d') \/ (fx e = Some None /\ In (e, vs) d')) ->
    keys d = keys d' -> NoDup (keys d) ->
    exists st', update_fix_dict fx (fix_dict k d) st = Ok (fix_dict k d', st') /\
      arr st' = arr st /\ data st' = data st /\ pre st' = pre st /\
      (forall c, (forall e, In e (keys d) -> c <> (k, e)) -> fixc st' c = fixc st c) /\
      (forall e, In e (keys d) -> forall w ws, fx e = Some (Some (w :: ws)) -> fixc st' (k, e) = w).
  Proof.
    revert d' st; induction d as [|[e vs] r IH]; intros [|[e' vs'] r'] st H K ND; simpl in K; try discriminate.
    - exists st. simpl. split; auto. split; auto. split; auto. split; auto. split; auto. intros e [].
    - inversion K as [[K1 K2]]. subst e'. change (keys r = keys r') in K2. simpl in ND. inversion ND as [|? ? Ne ND']; subst.
      assert (Hr : forall a us, In (a, us) r -> (exists w ws, fx a = Some (Some (w :: ws)) /\ In (a, w :: ws) r') \/ (fx a = Some None /\ In (a, us) r')).
      { intros a us I. assert (Na : a <> e) by (intros ->; apply Ne, in_map_iff; exists (e, us); auto).
        destruct (H a us (or_intror I)) as [(w & ws & E & J)|[E J]].
        - left. exists w, ws. split; auto. destruct J as [J|J]; auto. inversion J; congruence.
        - right. split; auto. destruct J as [J|J]; auto. inversion J; congruence. }
      assert (Head : forall us, In (e, us) ((e, vs') :: r') -> us = vs').
      { intros us [J|J]; [inversion J; auto|]. exfalso. apply Ne. change (In e (keys r)). rewrite K2. apply in_map_iff. exists (e, us); auto. }
      cbn [fix_dict map update_fix_dict fst snd]. fold (fix_dict k r). fold (fix_dict k r').
      destruct (H e vs (or_introl eq_refl)) as [(w & ws & E & J)|[E J]]; apply Head in J; subst vs'; rewrite E.
      + destruct (IH r' (set_cell st (k, e) w) Hr K2 ND') as (st' & E1 & A & D & P & C1 & C2).
        rewrite E1. cbn [bind fst snd]. exists st'. split; auto. split; auto. split; auto. split; auto. split.
        * intros c Hc. rewrite C1 by (intros a Ia; apply Hc; simpl; auto). unfold set_cell; cbn [fixc].
          match goal with |- context [@eqb ?A ?i ?x ?y] => destruct (@eqb_spec A i x y) as [->|] end; auto.
          exfalso. apply (Hc e); simpl; auto.
        * intros a [<-|Ia] w' ws' Ea; [|eauto]. rewrite C1.
          -- simpl in Ea; rewrite E in Ea. inversion Ea; subst. unfold set_cell; cbn [fixc].
             match goal with |- context [@eqb ?A ?i ?x ?y] => destruct (@eqb_spec A i x y) as [|Q] end; auto. exfalso; apply Q; reflexivity.
          -- intros b Ib Q. inversion Q; subst. tauto.
      + destruct (IH r' st Hr K2 ND') as (st' & E1 & A & D & P & C1 & C2).
        rewrite E1. cbn [bind fst snd]. exists st'. split; auto. split; auto. split; auto. split; auto. split.
        * intros c Hc. apply C1. intros a Ia; apply Hc; simpl; auto.
        * intros a [<-|Ia] w' ws' Ea; [simpl in Ea; congruence|eauto].
  Qed.

  Lemma fd1_NoDup (n : net) : ready ev n -> NoDup (keys (fd1_of n)).
  Proof. intros R. rewrite (fd1_keys R). apply NoDup_filter', (wf_edges (rd_wf R)). Qed.

  (** updating the fixes of a task gives the task of the network with the new fixes *)
  Theorem update_fix_refix (n : net) split path (st : store S) fx :
    ready ev n -> in_range n -> good_slices n split ->
    (forall e ed, get e (edges (refix n)) = Some ed -> e_fix ed <> None -> fx e = Some (e_fix ed)) ->
    (forall e, In e split -> fx e = Some None) ->
    exists st', update_fix fx (the_task n split path) st = Ok (the_task (refix n) split path, st') /\
      data st' = data st /\ cells_ok (refix n) st'.
  Proof.
    intros R IR G Hf Hs. assert (R' := refix_ready R IR). assert (G' := refix_slices G).
    rewrite (refix_task path R IR G). unfold update_fix. cbn [t_fix the_task]. unfold the_fix at 1.
    rewrite update_fix_dict_app.
    destruct (@update_entries 1 fx (fd1_of n) (fd1_of (refix n)) st) as (s1 & E1 & A1 & D1 & P1 & C1 & C1').
    { intros e vs I. left. assert (K : In e (keys (fd1_of (refix n)))) by (rewrite refix_fd1_keys; apply in_map_iff; exists (e, vs); auto).
      apply in_map_iff in K as [[a us] [Eq J]]. simpl in Eq; subst a. destruct (fd1_single R' _ _ J) as (w & -> & _).
      exists w, []. split; auto. apply fd1_In in J as [ed [J F]].
      rewrite (Hf e ed); [congruence| |congruence]. apply In_get; auto. apply (wf_edges (rd_wf R')). }
    { symmetry. apply refix_fd1_keys. }
    { apply fd1_NoDup; auto. }
    destruct (@update_entries 2 fx (fd2_of n split) (fd2_of n split) s1) as (s2 & E2 & A2 & D2 & P2 & C2 & C2').
    { intros e vs I. right. split; auto. apply Hs. apply (fd2_In R G) in I; tauto. }
    { auto. }
    { rewrite fd2_keys. apply NoDup_filter', (live_NoDup R). }
    rewrite E1. cbn [bind fst snd]. rewrite E2. cbn [bind fst snd].
    eexists; split; [|split].
    - f_equal. f_equal. unfold the_fix. rewrite refix_fd2. reflexivity.
    - simpl. congruence.
    - intros e w I. cbn [fixc set_pre]. rewrite C2.
      + apply (C1' e) with [].
        * rewrite <- refix_fd1_keys. apply in_map_iff. exists (e, [w]); auto.
        * apply fd1_In in I as [ed [J F]]. rewrite (Hf e ed); [congruence| |congruence].
          apply In_get; auto. apply (wf_edges (rd_wf R')).
      + intros a _ Q. inversion Q.
  Qed.
End UpdateFix.

(** ** networks whose nodes hold arrays *)
Section Arrays.
  Variable S : scalar.
  Lemma nd_laws : @payload_laws S (nd S) (nd_payload S) (@nd_at S).
  Proof.
    constructor; simpl; auto.
    - intros bs. rewrite !map_length; auto.
    - intros bs. induction bs as [|b r IH]; intros [|i] Hi; simpl in *; try lia; auto.
      apply IH; lia.
  Qed.
  Lemma nd_ev_laws : ev_laws (@nd_at S) (Ok (A := nd S)).
  Proof.
    constructor.
    - intros t a E idx _. inversion E; auto.
    - exists (nd_scalar k1). auto.
    - intros d. exists (nd_eye S d). auto.
    - intros bs. eexists. split; [reflexivity|]. simpl. rewrite map_length. auto.
  Qed.
End Arrays.
