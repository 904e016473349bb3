(** Invariants of histories of calls. *)
From Verif Require Import Base Scalar NetSpec ModelTN ModelHist TNInv TNOps TNSpec TNMerge TNDelta.
Set Implicit Arguments.

Section Hist.
  Context {T : Type} `{PT : Payload T}.
  Notation net := (tn T).
  Implicit Types (n : net) (x e m : name).

  (** no edge name given to the call is Python's None (which asks for an automatic name) *)
  Definition names_given (c : call T) : Prop :=
    match c with
    | COpenEdge e _ => e <> NN
    | CAddNode _ (Some l) _ _ => ~ In NN l
    | _ => True
    end.

  Lemma drop_ok {A} (m : M A) n n' : drop m n = (n', Ok tt) -> exists a, m n = (n', Ok a).
  Proof. unfold drop. intros E. minvs. eauto. Qed.

  Lemma legs_given (l : option (list name)) (t : T) :
    match l with Some l => ~ In NN l | None => True end -> ~ In NN (legs_of l t).
  Proof.
    destruct l; simpl; auto. intros _. destruct (pshape t); simpl; auto. apply range_names_NN.
  Qed.

  Lemma call_inv c n n' : names_given c -> succeeds c n n' -> inv n -> inv n'.
  Proof.
    unfold succeeds. destruct c; intros Hg E I.
    all: assert (W : wf n) by apply I.
    all: apply (@inv_clean _ n n' I); cbn [do_call] in E; try (apply drop_ok in E as [r E]).
    all: try match goal with |- clean _ _ =>
      match type of E with ?m _ = _ =>
        let C := fresh in assert (C : always clean m);
        [ first [ apply add_edge_clean | apply update_dimension_clean | apply open_edge_clean
                | apply update_node_clean | apply fix_edge_clean | apply fix_index_clean
                | apply rewire_clean
                | apply add_node_clean; apply legs_given; destruct es; auto ]
        | specialize (C n); rewrite E in C; exact C ] end end.
    - eapply add_edge_wf; eauto.
    - pose proof (update_dimension_grows dic n) as G. rewrite E in G. eapply grows_wf; eauto.
    - eapply open_edge_wf; eauto.
    - eapply close_edge_wf; eauto.
    - unfold close_edge in E. minvs. apply clean_same; auto.
    - eapply add_node_wf; eauto. apply legs_given. destruct es; auto.
    - eapply update_node_wf; eauto.
    - eapply pop_node_wf; eauto.
    - apply pop_node_spec in E as [_ ->]. apply clean_same; auto.
    - eapply remove_node_wf; eauto.
    - unfold remove_node in E. minvs. apply pop_node_spec in E0 as [_ ->]. apply clean_same; auto.
    - eapply fix_edge_wf; eauto.
    - eapply fix_index_wf; eauto.
    - minvs. apply fix_all_wf; auto.
    - minvs. apply fix_all_clean; auto.
    - eapply complete_delta_inv; eauto.
    - apply complete_delta_inv in E; auto. intros J. exfalso. apply E; auto.
    - eapply merge_edges_wf; eauto.
    - eapply merge_edges_clean; eauto.
    - eapply rewire_wf; eauto.
  Qed.

  Lemma reach_inv n n' : reach (fun _ => names_given) n n' -> inv n -> inv n'.
  Proof. induction 1; auto. intros I. eapply call_inv; eauto. Qed.

  Lemma empty_inv : inv (@empty_tn T).
  Proof. split; [apply empty_wf|]. simpl; auto. Qed.

  (** ** bond dimensions *)
  Definition has_dim n e (d : nat) : Prop := exists ed, get e (edges n) = Some ed /\ e_dim ed = Some d.

  (** [keeps]: every edge with a dimension is still there with the same dimension *)
  Definition keeps n n' : Prop := forall e d, has_dim n e d -> has_dim n' e d.
  (** [shrinks]: no new edges, the remaining ones keep their dimension *)
  Definition shrinks n n' : Prop :=
    forall e ed', get e (edges n') = Some ed' ->
      exists ed, get e (edges n) = Some ed /\ (forall d, e_dim ed = Some d -> e_dim ed' = Some d).
  Definition stable n n' : Prop :=
    forall e d ed', has_dim n e d -> get e (edges n') = Some ed' -> e_dim ed' = Some d.

  Lemma keeps_refl n : keeps n n. Proof. intros e d; auto. Qed.
  Lemma keeps_trans a b c : keeps a b -> keeps b c -> keeps a c.
  Proof. unfold keeps; auto. Qed.
  Lemma shrinks_refl n : shrinks n n. Proof. intros e ed; eauto. Qed.
  Lemma shrinks_trans a b c : shrinks a b -> shrinks b c -> shrinks a c.
  Proof.
    intros H1 H2 e ed G. destruct (H2 _ _ G) as (ed1 & G1 & D1).
    destruct (H1 _ _ G1) as (ed0 & G0 & D0). exists ed0; auto.
  Qed.
  Lemma keeps_stable a b : keeps a b -> stable a b.
  Proof.
    intros K e d ed' H G. destruct (K _ _ H) as (ed & G' & D). congruence.
  Qed.
  Lemma shrinks_stable a b : shrinks a b -> stable a b.
  Proof.
    intros K e d ed' (ed & G & D) G'. destruct (K _ _ G') as (ed0 & G0 & D0).
    rewrite G in G0; inversion G0; subst. auto.
  Qed.
  Lemma keeps_shrinks a b c : keeps a b -> shrinks b c -> stable a c.
  Proof. intros K Sh e d ed' H G. eapply (shrinks_stable Sh); eauto. Qed.
  Lemma grows_keeps n n' : grows n n' -> keeps n n'.
  Proof. intros G e d (ed & Ge & D). eapply grows_dim; eauto. Qed.
  Lemma same_keeps n n' : edges n' = edges n -> keeps n n'.
  Proof. unfold keeps, has_dim. intros ->; auto. Qed.
  Lemma same_shrinks n n' : edges n' = edges n -> shrinks n n'.
  Proof. unfold shrinks. intros ->; eauto. Qed.

  Lemma k_bind {A B} (m : M A) (f : A -> M B) :
    always keeps m -> (forall a, always keeps (f a)) -> always keeps (mbind m f).
  Proof. apply always_bind. apply keeps_trans. Qed.
  Lemma k_foreach {X} (f : X -> M unit) l : (forall a, always keeps (f a)) -> always keeps (foreach f l).
  Proof. intros. apply always_foreach; auto. apply keeps_refl. apply keeps_trans. Qed.
  Lemma k_ret {A} (a : A) : always keeps (ret a). Proof. intros n; apply keeps_refl. Qed.
  Lemma k_raise {A} (x : exn) : always keeps (raise (A := A) x). Proof. intros n; apply keeps_refl. Qed.
  Lemma k_same f : (forall n, edges (f n) = edges n) -> always keeps (modify f).
  Proof. intros Hf n; apply same_keeps, Hf. Qed.
  Lemma k_get {A} (f : net -> M A) : (forall n, always keeps (f n)) -> always keeps (let! n := getst in f n).
  Proof. intros Hf n. apply Hf. Qed.
  Lemma k_grows {A} (m : M A) : always grows m -> always keeps m.
  Proof. intros G n. apply grows_keeps, G. Qed.

  Lemma open_edge_keeps e d : always keeps (open_edge e d).
  Proof.
    unfold open_edge. apply k_get. intros n. apply k_bind.
    - destruct (has e (edges n)); [apply k_ret|]. apply k_bind; [apply k_grows, add_edge_grows|].
      intros; apply k_ret.
    - intros; apply k_same; auto.
  Qed.
  Lemma update_node_keeps x t : always keeps (update_node x t).
  Proof.
    unfold update_node. apply k_get. intros n. destruct (get x (nodes n)) as [nd|]; [|apply k_raise].
    apply k_bind; [apply k_same; auto|]. intros _. destruct (pshape t).
    - destruct (_ <=? _); [apply k_grows, update_dimension_grows|apply k_raise].
    - apply k_grows, update_dimension_grows.
  Qed.
  Lemma graph_connect_keeps x es n : keeps n (graph_connect x es n).
  Proof.
    unfold graph_connect. set (n1 := fold_left _ es n).
    assert (C : keeps n n1).
    { unfold n1. clear n1. revert n; induction es as [|e r IH]; simpl; intros n; [apply keeps_refl|].
      eapply keeps_trans; [|apply IH]. destruct (has e (edges n)); [apply keeps_refl|].
      intros a d (ed & G & D). exists ed; split; auto. simpl. rewrite get_app, G; auto. }
    exact C.
  Qed.
  Lemma add_node_keeps x es t op : always keeps (add_node x es t op).
  Proof.
    unfold add_node. apply k_get. intros n. destruct (has x (nodes n)); [apply k_raise|].
    apply k_bind.
    { destruct es; [apply k_ret|]. destruct (pshape t); [apply k_ret|apply k_raise]. }
    intros [legs mut]. apply k_bind; [apply k_same; auto|intros _].
    apply k_bind; [apply k_foreach; intros p; apply k_grows, add_leg_grows|intros _].
    apply k_bind; [intros k; apply graph_connect_keeps|intros _].
    apply k_bind; [apply update_node_keeps|intros _].
    apply k_bind; [|intros _; apply k_ret].
    destruct op; [|apply k_ret]. apply k_foreach. intros; apply open_edge_keeps.
  Qed.
  Lemma set_same_dim n e ed fx :
    get e (edges n) = Some ed ->
    let n' := with_edges n (set e (Edge (e_dim ed) fx) (edges n)) in keeps n n' /\ shrinks n n'.
  Proof.
    intros G n'. split.
    - intros a d (ad & Ga & Da). unfold has_dim. simpl. rewrite get_set.
      destruct (eqb_spec a e) as [->|N]; eauto. rewrite G in Ga; inversion Ga; subst. eauto.
    - intros a ad. simpl. rewrite get_set. destruct (eqb_spec a e) as [->|N]; eauto.
      intros Q; inversion Q; subst. exists ed; auto.
  Qed.
  Lemma fix_edge_both e vals c n :
    keeps n (fst (fix_edge e vals c n)) /\ shrinks n (fst (fix_edge e vals c n)).
  Proof.
    assert (R : keeps n n /\ shrinks n n) by (split; [apply keeps_refl|apply shrinks_refl]).
    unfold fix_edge. cbv [mbind getst]. destruct (get e (edges n)) as [ed|] eqn:G; [|exact R].
    destruct (e_dim ed) as [d|] eqn:D; [|exact R]. destruct (forallb _ _); [|exact R].
    rewrite <- D. destruct (e_fix ed) as [old|].
    - destruct c; [|apply set_same_dim; auto].
      destruct (filter _ _), old; try exact R. apply set_same_dim; auto.
    - apply set_same_dim; auto.
  Qed.
  Lemma del_shrinks n e : shrinks n (graph_del_edge n e).
  Proof.
    intros a ad. simpl. destruct (eq_dec_of_eqb e a) as [->|N].
    - rewrite get_del_eq; discriminate.
    - rewrite get_del_neq by auto. eauto.
  Qed.
  Lemma fix1_shrinks n e : shrinks n (fix1 n e).
  Proof.
    unfold fix1. destruct (get e (edges n)) as [ed|]; [|apply shrinks_refl].
    destruct (e_fix ed); [|apply shrinks_refl].
    destruct (fold_map_legs (filter (fun i => negb (eqb e i))) n (dedup_NoDup (adj_nodes n e)))
      as (E1 & _).
    fold (strip_leg (T := T) e) in E1. cbv zeta.
    destruct (mem _ _).
    - apply same_shrinks; auto.
    - eapply shrinks_trans; [|apply del_shrinks]. apply same_shrinks; auto.
  Qed.
  Lemma fix_all_shrinks n : shrinks n (fix_all n).
  Proof.
    unfold fix_all. generalize (keys (edges n)). intros l; revert n; induction l as [|e r IH]; simpl; intros n.
    - apply shrinks_refl.
    - eapply shrinks_trans; [|apply IH]. apply fix1_shrinks.
  Qed.
  Lemma s_bind {A B} (m : M A) (f : A -> M B) :
    always shrinks m -> (forall a, always shrinks (f a)) -> always shrinks (mbind m f).
  Proof. apply always_bind. apply shrinks_trans. Qed.
  Lemma s_get {A} (f : net -> M A) : (forall n, always shrinks (f n)) -> always shrinks (let! n := getst in f n).
  Proof. intros Hf n. apply Hf. Qed.
  Lemma s_same f : (forall n, edges (f n) = edges n) -> always shrinks (modify f).
  Proof. intros Hf n; apply same_shrinks, Hf. Qed.
  Lemma merge1_shrinks m e : always shrinks (merge1 m e).
  Proof.
    unfold merge1. apply s_get. intros n.
    destruct (get e (edges n)) as [ed|]; [|intros k; apply shrinks_refl].
    apply s_bind.
    - destruct (e_fix ed); [|intros k; apply shrinks_refl]. intros k. apply fix_edge_both.
    - intros _. apply s_bind; [intros k; apply same_shrinks; auto|]. intros _.
      destruct (eqb e m); intros k; [apply shrinks_refl|apply del_shrinks].
  Qed.
  Lemma fold_legs_edges f (L : list name) n : edges (fold_left (map_legs f) L n) = edges n.
  Proof.
    revert n; induction L as [|x r IH]; intros n; simpl; auto. rewrite IH.
    apply (map_legs_same f n x).
  Qed.
  Lemma merge_edges_stable es mt n : stable n (fst (merge_edges es mt n)).
  Proof.
    unfold merge_edges. rewrite mbind_fst.
    assert (L : forall d0, fst (last_dim es d0 n) = n).
    { induction es as [|e r IH]; intros d0; auto. cbn [last_dim]. cbv [mbind getst].
      destruct (get e (edges n)); auto. }
    specialize (L None). destruct (last_dim es None n) as [n0 [d|?]]; simpl in L; subst n0;
      [|apply shrinks_stable, shrinks_refl].
    rewrite mbind_fst.
    match goal with |- stable n match ?t n with _ => _ end => assert (K : always keeps t) end.
    { assert (KK : forall mt0, always keeps (let! n := getst in
         if has mt0 (edges n) then ret mt0 else add_edge mt0 None)).
      { intros mt0. apply k_get. intros k. destruct (has mt0 (edges k));
          [apply k_ret|apply k_grows, add_edge_grows]. }
      destruct mt; try apply KK. intros k; apply keeps_refl. }
    specialize (K n). match goal with |- stable n match ?t n with _ => _ end =>
      destruct (t n) as [n1 [m|?]] end; simpl in K; [|apply keeps_stable; auto].
    rewrite mbind_fst. pose proof (update_dimension_grows [(m, d)] n1) as G.
    destruct (update_dimension [(m, d)] n1) as [n2 [[]|?]]; simpl in G; apply grows_keeps in G;
      pose proof (keeps_trans K G) as K2; [|apply keeps_stable; auto].
    apply (keeps_shrinks K2). clear K K2 G n n1. rename n2 into n.
    match goal with |- shrinks n (fst (?f n)) => assert (SS : always shrinks f); [|apply SS] end.
    apply s_get. intros k. apply s_bind.
    { apply always_foreach; [apply shrinks_refl|apply shrinks_trans|]. intros; apply merge1_shrinks. }
    intros _. apply s_bind; [apply s_same; intros; apply fold_legs_edges|].
    intros _. apply s_bind; [apply s_same; auto|]. intros _. apply s_get. intros k'.
    destruct (forallb _ _); intros k''; apply shrinks_refl.
  Qed.
  Lemma rewire_keeps x leg to : always keeps (rewire x leg to).
  Proof.
    unfold rewire. apply k_get. intros n. destruct (get x (nodes n)) as [nd|]; [|apply k_raise].
    destruct (n_val nd) as [t|]; [|apply k_raise].
    apply k_bind.
    { destruct (pshape t) as [sh|]; [destruct (nth_error sh leg)|];
        solve [apply k_ret|apply k_raise]. }
    intros d. destruct (nth_error (n_legs nd) leg) as [old|]; [|apply k_raise].
    apply k_bind; [destruct (has to (edges n)); [apply k_ret|apply k_grows, add_edge_grows]|].
    intros to'. destruct (n_mut nd); [|apply k_raise].
    apply k_bind.
    { apply k_same. intros k. unfold set_legs. destruct (get x (nodes k)); auto. }
    intros _. apply k_bind; [apply k_same; auto|]. intros _.
    destruct (mem _ _); [apply k_ret|]. apply k_get. intros k.
    destruct (mem _ _); [|apply k_raise]. apply k_same; auto.
  Qed.
  Lemma dim_of_keeps e : always keeps (dim_of (T := T) e).
  Proof.
    unfold dim_of. apply k_get. intros n. destruct (get e (edges n)) as [ed|]; [|apply k_raise].
    destruct (e_dim ed); [apply k_ret|apply k_raise].
  Qed.
  Lemma delta_open_keeps l : forall cnt, always keeps (delta_open l cnt).
  Proof.
    induction l as [|[i e] r IH]; intros cnt; cbn [delta_open]; [apply k_ret|].
    destruct (get e cnt); [|apply IH].
    apply k_bind; [apply dim_of_keeps|]. intros d.
    apply k_bind; [apply add_node_keeps|]. intros _.
    apply k_bind; [apply k_same; auto|]. intros _. apply IH.
  Qed.
  Lemma delta_fix_keeps old p : always keeps (delta_fix old p).
  Proof.
    destruct p as [e k]. unfold delta_fix. intros n.
    match goal with |- keeps n (fst (?t n)) => change (t n) with
      (match get e (edges n) with None => raise KeyError | Some ed =>
        match e_fix ed with
        | Some fx =>
            let! d := dim_of e in
            modify (fun n => with_edges n (set e (Edge (Some d) None) (edges n))) ;;
            let! _ := add_node (delta_node e 0) (Some [e])
                        (p_diag (map (fun i => mem i fx) (seq 0 d))) false in ret tt
        | None =>
            if negb (mem e old) && (k =? 0)
            then let! d := dim_of e in
                 let! _ := add_node (delta_node e 0) (Some [e])
                             (p_diag (map (fun _ => true) (seq 0 d))) false in ret tt
            else ret tt
        end end n) end.
    destruct (get e (edges n)) as [ed|] eqn:G; [|apply keeps_refl].
    destruct (e_fix ed) as [fx|].
    - rewrite mbind_fst. destruct (dim_of e n) as [n1 [d|?]] eqn:D.
      + apply dim_of_spec in D as (-> & ed' & G' & D). rewrite G in G'; inversion G'; subst ed'.
        rewrite <- D. eapply keeps_trans; [apply (@set_same_dim n e ed None G)|].
        match goal with |- keeps _ (fst (?m _)) => idtac end.
        rewrite mbind_fst. simpl.
        set (n0 := with_edges n _).
        pose proof (@add_node_keeps (delta_node e 0) (Some [e]) (p_diag (map (fun i => mem i fx) (seq 0 d))) false n0) as K.
        rewrite mbind_fst. destruct (add_node _ _ _ _ n0) as [n1 [u|?]]; exact K.
      + pose proof (@dim_of_keeps e n) as K. rewrite D in K. exact K.
    - match goal with |- keeps n (fst (?m n)) => assert (A : always keeps m); [|apply A] end.
      destruct (_ && _); [|apply k_ret].
      apply k_bind; [apply dim_of_keeps|]. intros d.
      apply k_bind; [apply add_node_keeps|]. intros; apply k_ret.
  Qed.
  Lemma complete_delta_keeps : always keeps (complete_delta (T := T)).
  Proof.
    unfold complete_delta. apply k_get. intros n. destruct (has star (nodes n)); [apply k_ret|].
    cbv zeta. apply k_bind.
    { destruct (nodes n); [|apply k_ret]. apply k_bind; [apply add_node_keeps|]. intros; apply k_ret. }
    intros _. apply k_bind; [apply delta_open_keeps|]. intros cnt. apply k_foreach.
    intros; apply delta_fix_keeps.
  Qed.

  Lemma k_drop {A} (m : M A) : always keeps m -> always keeps (drop m).
  Proof. intros. apply k_bind; auto. intros; apply k_ret. Qed.
  Lemma drop_fst {A} (m : M A) n : fst (drop m n) = fst (m n).
  Proof. unfold drop. rewrite mbind_fst. destruct (m n) as [n1 [a|?]]; auto. Qed.

  (** whatever a call does, also when it raises, the edges it leaves keep their dimension *)
  Lemma call_stable c n : stable n (fst (do_call c n)).
  Proof.
    destruct c; cbn [do_call].
    all: try (apply keeps_stable;
      first [ apply k_drop, k_grows, add_edge_grows | apply k_grows, update_dimension_grows
            | apply open_edge_keeps | apply k_drop, add_node_keeps | apply update_node_keeps
            | apply fix_edge_both | apply complete_delta_keeps | apply rewire_keeps ]).
    - apply shrinks_stable, same_shrinks; auto.
    - rewrite drop_fst. apply shrinks_stable, same_shrinks. unfold pop_node. cbv [mbind getst].
      destruct (get x (nodes n)); auto.
    - rewrite drop_fst. apply shrinks_stable, same_shrinks. unfold remove_node. rewrite mbind_fst.
      unfold pop_node. cbv [mbind getst]. destruct (get x (nodes n)); auto.
    - apply shrinks_stable. unfold fix_index. cbv [mbind getst].
      destruct (nth_error (opens n) i) as [e|]; [|apply shrinks_refl].
      pose proof (fix_edge_both e vals false n) as [_ Sh].
      destruct (fix_edge e vals false n) as [n1 [u|?]]; exact Sh.
    - apply shrinks_stable, fix_all_shrinks.
    - rewrite drop_fst. apply merge_edges_stable.
  Qed.
End Hist.
