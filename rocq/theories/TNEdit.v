(** More laws of the edit calls: repeated fixes, removing and re-adding a node, failed calls,
    automatic edge names. *)
From Coq Require Import DecimalString DecimalNat.
From Verif Require Import Base Scalar NetSpec Sums NetAlg ModelTN ModelHist TNInv TNOps TNSpec TNMerge TNDelta TNHist
  TNValue TNValue2 TNExact.
Set Implicit Arguments.

Section FixLaws.
  Context {S : scalar} {T : Type} `{PT : Payload T}.
  Add Ring KringE : (kring S).
  Variable pv : T -> list nat -> S.
  Notation net := (tn T).
  Notation value := (tn_value pv).
  Implicit Types (n : net) (x e m : name).
  Open Scope K_scope.

  Lemma esum_fix_edge e vals n n' r (f : env (A := name) -> S) :
    NoDup (keys (edges n)) -> fix_edge e vals false n = (n', Ok r) -> exten f ->
    esum (tn_dom n') f env0 = esum (tn_dom n) (fun s => kdelta (mem (s e) vals) * f s) env0.
  Proof.
    intros ND E Ef. apply fix_edge_values in E as (ed & ed' & G & -> & _ & V & _).
    assert (P : Permutation (tn_dom (with_edges n (set e ed' (edges n))))
                  ((e, edge_values ed') :: map dpair (del e (edges n)))).
    { change ((e, edge_values ed') :: map dpair (del e (edges n)))
        with (map dpair ((e, ed') :: del e (edges n))).
      apply Permutation_map. eapply perm_trans; [apply perm_get_front; [|apply get_set_eq]|].
      - apply keys_set_NoDup; auto.
      - apply perm_skip, del_set; auto. }
    rewrite (@esum_perm _ _ _ _ _ _ _ P); auto.
    2:{ rewrite keys_tn_dom. apply keys_set_NoDup; auto. }
    rewrite V, <- esum_restrict by apply del_notin.
    symmetry. apply esum_perm.
    - change ((e, edge_values ed) :: map dpair (del e (edges n)))
        with (map dpair ((e, ed) :: del e (edges n))).
      apply Permutation_map, perm_get_front; auto.
    - rewrite keys_tn_dom; auto.
    - intros s s' Es. rewrite Es. f_equal. apply Ef; auto.
  Qed.
  Lemma fix_edge_nodup e vals c n n' r :
    fix_edge e vals c n = (n', Ok r) -> NoDup (keys (edges n)) -> NoDup (keys (edges n')).
  Proof.
    intros E ND. unfold fix_edge in E. minv E. destruct (get e (edges n)) as [ed|]; [|minvs].
    destruct (e_dim ed); [|minvs]. destruct (forallb _ _); [|minvs].
    destruct (e_fix ed) as [old|]; [destruct c; [destruct (filter _ _), old|]|]; minvs; simpl; apply keys_set_NoDup; auto.
  Qed.

  (** two fixes on any edges: both restrictions apply, in either order *)
  Lemma value_fix_fix e1 v1 e2 v2 n n1 n2 r1 r2 o :
    NoDup (keys (edges n)) ->
    fix_edge e1 v1 false n = (n1, Ok r1) -> fix_edge e2 v2 false n1 = (n2, Ok r2) ->
    value n2 o = esum (tn_dom n) (fun s => kdelta (mem (s e1) v1 && mem (s e2) v2) * summand pv n o s) env0.
  Proof.
    intros ND E1 E2. rewrite (@value_fix_edge _ _ pv e2 v2 n1 n2 r2 o); auto.
    2:{ eapply fix_edge_nodup; eauto. }
    rewrite (@esum_fix_edge e1 v1 n n1 r1); auto.
    - apply esum_ext_all. intros s. apply fix_edge_values in E1 as (ed & ed' & _ & -> & _).
      unfold summand. rewrite tn_terms_with_edges. simpl opens.
      destruct (mem (s e1) v1), (mem (s e2) v2); simpl; ring.
    - intros s s' Es. rewrite Es. f_equal. apply summand_ext; auto.
  Qed.
  Lemma value_fix_commute e1 v1 e2 v2 n n1 n2 r1 r2 n1' n2' r1' r2' o :
    NoDup (keys (edges n)) ->
    fix_edge e1 v1 false n = (n1, Ok r1) -> fix_edge e2 v2 false n1 = (n2, Ok r2) ->
    fix_edge e2 v2 false n = (n1', Ok r1') -> fix_edge e1 v1 false n1' = (n2', Ok r2') ->
    value n2 o = value n2' o.
  Proof.
    intros ND E1 E2 E1' E2'. rewrite (@value_fix_fix _ _ _ _ _ _ _ _ _ o ND E1 E2), (@value_fix_fix _ _ _ _ _ _ _ _ _ o ND E1' E2').
    apply esum_ext_all. intros s. rewrite andb_comm. reflexivity.
  Qed.
  Lemma value_fix_twice e v1 v2 n n1 n2 r1 r2 n' r' o :
    NoDup (keys (edges n)) ->
    fix_edge e v1 false n = (n1, Ok r1) -> fix_edge e v2 false n1 = (n2, Ok r2) ->
    fix_edge e (filter (fun v => mem v v2) v1) false n = (n', Ok r') ->
    value n2 o = value n' o.
  Proof.
    intros ND E1 E2 E'. rewrite (@value_fix_fix _ _ _ _ _ _ _ _ _ o ND E1 E2), (@value_fix_edge _ _ pv _ _ _ _ _ o ND E').
    apply esum_ext_all. intros s. f_equal. f_equal.
    apply eq_true_iff_eq. rewrite andb_true_iff, !mem_In, filter_In, mem_In. tauto.
  Qed.
  (** a fix to several values is the sum of the fixes to each of them *)
  Lemma value_fix_split e vals n n' r o :
    NoDup (keys (edges n)) -> NoDup vals -> fix_edge e vals false n = (n', Ok r) ->
    exists nv : nat -> net, (forall v, In v vals -> fix_edge e [v] false n = (nv v, Ok tt)) /\
      value n' o = sumf (fun v => value (nv v) o) vals.
  Proof.
    intros ND NV E. exists (fun v => fst (fix_edge e [v] false n)).
    assert (Q : forall v, In v vals -> fix_edge e [v] false n = (fst (fix_edge e [v] false n), Ok tt)).
    { intros v Iv. apply fix_edge_spec in E as (ed & d & G & D & Fa & _).
      unfold fix_edge. cbv [mbind getst]. rewrite G, D. simpl.
      assert (Lv : v <? d = true).
      { apply Nat.ltb_lt. rewrite Forall_forall in Fa; auto. }
      rewrite Lv. simpl. destruct (e_fix ed); reflexivity. }
    split; auto. rewrite (@value_fix_edge _ _ pv _ _ _ _ _ o ND E).
    rewrite (sumf_ext _ (fun v => esum (tn_dom n) (fun s => kdelta (mem (s e) [v]) * summand pv n o s) env0)).
    2:{ intros v Iv. apply (@value_fix_edge _ _ pv e [v] n _ tt o ND (Q v Iv)). }
    rewrite <- esum_sumf.
    apply esum_ext_all. intros s. rewrite (sumf_ext _ (fun v => kdelta (eqb (s e) v) * summand pv n o s)).
    2:{ intros v _. unfold mem. simpl. rewrite orb_false_r. reflexivity. }
    clear -NV. induction vals as [|v l IH]; simpl; [unfold mem; simpl; ring|].
    inversion NV; subst. rewrite <- IH by auto. unfold mem at 1. simpl.
    destruct (eqb_spec (s e) v) as [->|N]; simpl.
    - fold (mem v l). rewrite (proj2 (mem_false _ _) H1). simpl. ring.
    - fold (mem (s e) l). ring.
  Qed.
End FixLaws.

Section Edits.
  Context {T : Type} `{PT : Payload T}.
  Notation net := (tn T).
  Implicit Types (n : net) (x e m : name).

  (** ** removing a node and adding it back *)
  Lemma get_del_any {A B} `{Eqb A} (k j : A) (l : list (A * B)) : NoDup (keys l) ->
    get j (del k l) = if eqb j k then None else get j l.
  Proof.
    intros ND. destruct (eqb_spec j k) as [->|N]; [apply get_del_eq|]. apply get_del_neq; auto.
  Qed.

  Lemma pop_add x n n1 nd t :
    inv n -> pop_node x n = (n1, Ok nd) -> n_val nd = Some t ->
    pshape t = Some (map (edim n) (n_legs nd)) ->
    get x (nodes n) = Some nd /\ ~ In x (keys (nodes n1)) /\
    exists n2, add_node x (Some (n_legs nd)) t false n1 = (n2, Ok x) /\ same_meaning n n2 /\
      (forall p, In p (adj n2) <-> In p (adj n)).
  Proof.
    intros [W C] E V Sh. apply pop_node_spec in E as [G ->].
    assert (Nx : ~ In x (keys (del x (nodes n)))).
    { rewrite keys_del_In. tauto. }
    split; auto. split; auto.
    exists (plus_node (graph_del_node n x) x (n_legs nd) t false). split; [|split].
    - apply add_node_typed; auto.
      + intros e Ie. simpl. eapply (wf_legs W); eauto.
      + intros Q. apply C. eapply (wf_legs W); eauto.
    - constructor; try apply W.
      + simpl. rewrite keys_app. simpl. apply NoDup_snoc; auto. apply keys_del_NoDup, W.
      + intros e; reflexivity.
      + intros y. simpl. rewrite get_snoc by auto. rewrite get_del_any by apply W.
        destruct (eqb_spec y x) as [->|N]; auto. rewrite G. simpl. rewrite V. reflexivity.
      + simpl. rewrite app_nil_r; auto.
    - intros [y e]. simpl. rewrite add_adjs_In, filter_In, in_map_iff. simpl.
      rewrite negb_true_iff, eqb_neq. split.
      + intros [[? _]|(a & Q & Ia)]; auto. inversion Q; subst. apply (wf_adj W). eauto.
      + intros Q. destruct (eq_dec_of_eqb x y) as [<-|N]; auto. right. exists e. split; auto.
        apply (wf_adj W) in Q as (nd' & G' & Ie). congruence.
  Qed.

  (** ** calls that check before they change anything *)
  Definition untouched n n' : Prop :=
    nodes n' = nodes n /\ edges n' = edges n /\ adj n' = adj n /\ opens n' = opens n.

  Definition checks_first (c : call T) : Prop :=
    match c with
    | CAddEdge _ _ | COpenEdge _ _ | CCloseEdge _ | CPopNode _ | CRemoveNode _
    | CFixEdge _ _ _ | CFixIndex _ _ | CFix => True
    | CUpdateDim dic => length dic <= 1
    | _ => False
    end.

  Lemma untouched_refl n : untouched n n. Proof. unfold untouched; auto. Qed.

  Lemma update_dim1_err e d n n' (q : exn) : update_dim1 e d n = (n', Err q) -> n' = n.
  Proof.
    unfold update_dim1. cbv [mbind getst]. destruct (get e (edges n)) as [ed|]; [|intros Q; inversion Q; auto].
    destruct (e_dim ed) as [a|]; [destruct d as [b|]; [destruct (a =? b)|]|]; intros Q; inversion Q; auto.
  Qed.
  Lemma fix_edge_err e vals c n n' (q : exn) : fix_edge e vals c n = (n', Err q) -> n' = n.
  Proof.
    unfold fix_edge. cbv [mbind getst]. destruct (get e (edges n)) as [ed|]; [|intros Q; inversion Q; auto].
    destruct (e_dim ed) as [a|]; [|intros Q; inversion Q; auto].
    destruct (forallb _ _); [|intros Q; inversion Q; auto].
    destruct (e_fix ed) as [old|]; [destruct c; [destruct (filter _ _), old|]|]; intros Q; inversion Q; auto.
  Qed.
  Lemma update_dimension1_err e d n n' (q : exn) : update_dimension [(e, d)] n = (n', Err q) -> n' = n.
  Proof.
    unfold update_dimension. simpl. unfold mbind. destruct (update_dim1 e d n) as [n1 [u|y]] eqn:E.
    - simpl. intros Q; inversion Q.
    - apply update_dim1_err in E. intros Q; inversion Q; subst; auto.
  Qed.
  Lemma add_edge_err e d n n' (q : exn) : add_edge e d n = (n', Err q) -> untouched n n' /\ d <> None /\ (e <> NN -> In e (keys (edges n)) /\ idc n' = idc n).
  Proof.
    unfold add_edge. unfold mbind at 1. unfold getst at 1.
    set (m := match e with NN => _ | _ => _ end).
    assert (Hm : exists n1 a, m n = (n1, Ok a) /\ untouched n n1 /\ (e <> NN -> a = e /\ n1 = n)).
    { destruct e; unfold m; cbv [mbind ret modify]; eexists; eexists; (split; [reflexivity|]); split;
        try (unfold untouched; simpl; tauto); auto; try congruence. }
    destruct Hm as (n1 & a & Em & U & Hn). unfold mbind at 1. rewrite Em.
    destruct (has a (edges n)) eqn:Ha.
    - destruct d as [d|].
      + unfold mbind. destruct (update_dimension [(a, Some d)] n1) as [n2 [u|y]] eqn:E.
        * intros Q; inversion Q.
        * apply update_dimension1_err in E. intros Q; inversion Q; subst. split; auto. split; [discriminate|].
          intros Ne. destruct (Hn Ne) as [-> ->]. split; auto. apply has_In; auto.
      + intros Q; inversion Q.
    - intros Q; inversion Q.
  Qed.

  Lemma checks_first_atomic c n n' (q : exn) :
    checks_first c -> do_call c n = (n', Err q) -> untouched n n'.
  Proof.
    destruct c; simpl; try tauto; intros Hc E.
    - unfold drop, mbind in E. destruct (add_edge e d n) as [n1 [a|y]] eqn:Ea; inversion E; subst.
      eapply add_edge_err; eauto.
    - destruct dic as [|[a b] [|? ?]]; simpl in Hc; try lia.
      + inversion E.
      + apply update_dimension1_err in E; subst. apply untouched_refl.
    - unfold open_edge in E. cbv [mbind getst] in E. destruct (has e (edges n)); [inversion E|].
      destruct (add_edge e d n) as [n1 [a|y]] eqn:Ea; inversion E; subst. eapply add_edge_err; eauto.
    - inversion E.
    - unfold drop, pop_node in E. cbv [mbind getst] in E. destruct (get x (nodes n)); inversion E; subst.
      apply untouched_refl.
    - unfold drop, remove_node, pop_node in E. cbv [mbind getst] in E. destruct (get x (nodes n)); inversion E; subst.
      apply untouched_refl.
    - apply fix_edge_err in E; subst. apply untouched_refl.
    - unfold fix_index in E. cbv [mbind getst] in E. destruct (nth_error (opens n) i) as [e|]; [|inversion E; subst; apply untouched_refl].
      destruct (fix_edge e vals false n) as [n1 [u|y]] eqn:Ef; [inversion E|].
      apply fix_edge_err in Ef. inversion E; subst. apply untouched_refl.
    - inversion E.
  Qed.

  (** adding a node under a name that exists fails and changes nothing *)
  Lemma add_node_taken x es t op n : In x (keys (nodes n)) -> add_node x es t op n = (n, Err ValueError).
  Proof. intros I. apply has_In in I. unfold add_node. cbv [mbind getst]. rewrite I. reflexivity. Qed.

  (** ** fixes never repeat values *)
  Definition fixes_kept n n' : Prop := fix_nodup n -> fix_nodup n'.
  Lemma fk_refl n : fixes_kept n n. Proof. unfold fixes_kept; auto. Qed.
  Lemma fk_trans a b c : fixes_kept a b -> fixes_kept b c -> fixes_kept a c.
  Proof. unfold fixes_kept; auto. Qed.
  Lemma fk_bind {A B} (m : M A) (f : A -> M B) :
    always fixes_kept m -> (forall a, always fixes_kept (f a)) -> always fixes_kept (mbind m f).
  Proof. apply always_bind. apply fk_trans. Qed.
  Lemma fk_foreach {X} (f : X -> M unit) l : (forall a, always fixes_kept (f a)) -> always fixes_kept (foreach f l).
  Proof. intros. apply always_foreach; auto. apply fk_refl. apply fk_trans. Qed.
  Lemma fk_ret {A} (a : A) : always fixes_kept (ret a). Proof. intros n; apply fk_refl. Qed.
  Lemma fk_raise {A} (q : exn) : always fixes_kept (raise (A := A) q). Proof. intros n; apply fk_refl. Qed.
  Lemma fk_edges n n' : (forall e ed' fx, get e (edges n') = Some ed' -> e_fix ed' = Some fx ->
      exists ed, get e (edges n) = Some ed /\ e_fix ed = Some fx) -> fixes_kept n n'.
  Proof. intros Q F e ed' fx G E. destruct (Q _ _ _ G E) as (ed & G' & E'). eapply F; eauto. Qed.
  Lemma fk_eq n n' : edges n' = edges n -> fixes_kept n n'.
  Proof. intros Q. apply fk_edges. rewrite Q. eauto. Qed.
  Lemma fk_same f : (forall n, edges (f n) = edges n) -> always fixes_kept (modify f).
  Proof. intros Hf n; apply fk_eq, Hf. Qed.
  Lemma fk_get {A} (f : net -> M A) : (forall n, always fixes_kept (f n)) -> always fixes_kept (let! n := getst in f n).
  Proof. intros Hf n. apply Hf. Qed.
  Lemma fk_set n e ed : (forall fx, e_fix ed = Some fx -> fix_nodup n -> NoDup fx) ->
    fixes_kept n (with_edges n (set e ed (edges n))).
  Proof.
    intros Q F a ad fx. simpl. rewrite get_set. destruct (eqb_spec a e) as [->|N]; [|apply F].
    intros Q' E. inversion Q'; subst. auto.
  Qed.
  Lemma fk_add n e d : fixes_kept n (with_edges n (edges n ++ [(e, Edge d None)])).
  Proof.
    apply fk_edges. simpl. intros a ad fx. rewrite get_app. destruct (get a (edges n)) eqn:G.
    - intros Q; inversion Q; subst; eauto.
    - simpl. destruct (eqb a e); [intros Q; inversion Q; subst; discriminate|discriminate].
  Qed.
  Lemma fk_del n e : fixes_kept n (graph_del_edge n e).
  Proof.
    apply fk_edges. simpl. intros a ad fx G E. exists ad. split; auto.
    destruct (eq_dec_of_eqb e a) as [->|N]; [rewrite get_del_eq in G; discriminate|].
    rewrite get_del_neq in G; auto.
  Qed.

  Lemma fk_update_dim1 e d : always fixes_kept (update_dim1 (T := T) e d).
  Proof.
    unfold update_dim1. intros n. cbv [mbind getst]. destruct (get e (edges n)) as [ed|] eqn:G; [|apply fk_refl].
    destruct (e_dim ed); [destruct d; [destruct (_ =? _)|]; apply fk_refl|].
    apply fk_set. simpl. intros fx E F. eapply F; eauto.
  Qed.
  Lemma fk_update_dimension dic : always fixes_kept (update_dimension (T := T) dic).
  Proof. apply fk_foreach. intros; apply fk_update_dim1. Qed.
  Lemma fk_add_edge e d : always fixes_kept (add_edge (T := T) e d).
  Proof.
    unfold add_edge. apply fk_get. intros n. apply fk_bind.
    { destruct e; try apply fk_ret. apply fk_bind; [apply fk_same; auto|]. intros; apply fk_ret. }
    intros a. apply fk_bind; [|intros; apply fk_ret].
    destruct (has a (edges n)); [destruct d; [apply fk_update_dimension|apply fk_ret]|].
    intros k. apply fk_add.
  Qed.
  Lemma fk_open_edge e d : always fixes_kept (open_edge (T := T) e d).
  Proof.
    unfold open_edge. apply fk_get. intros n. apply fk_bind; [|intros; apply fk_same; auto].
    destruct (has e (edges n)); [apply fk_ret|]. apply fk_bind; [apply fk_add_edge|]. intros; apply fk_ret.
  Qed.
  Lemma fk_update_node x t : always fixes_kept (update_node x t).
  Proof.
    unfold update_node. apply fk_get. intros n. destruct (get x (nodes n)) as [nd|]; [|apply fk_raise].
    apply fk_bind; [apply fk_same; auto|]. intros _. destruct (pshape t).
    - destruct (_ <=? _); [apply fk_update_dimension|apply fk_raise].
    - apply fk_update_dimension.
  Qed.
  Lemma fk_graph_connect x es n : fixes_kept n (graph_connect x es n).
  Proof.
    unfold graph_connect. set (n1 := fold_left _ es n).
    assert (C : fixes_kept n n1).
    { unfold n1. clear n1. revert n; induction es as [|e r IH]; simpl; intros n; [apply fk_refl|].
      eapply fk_trans; [|apply IH]. destruct (has e (edges n)); [apply fk_refl|apply fk_add]. }
    exact C.
  Qed.
  Lemma fk_add_leg sh p : always fixes_kept (add_leg (T := T) sh p).
  Proof.
    unfold add_leg. destruct sh as [l|].
    - destruct (nth_error l (fst p)); [|apply fk_raise]. apply fk_bind; [apply fk_add_edge|intros; apply fk_ret].
    - apply fk_bind; [apply fk_add_edge|intros; apply fk_ret].
  Qed.
  Lemma fk_add_node x es t op : always fixes_kept (add_node x es t op).
  Proof.
    unfold add_node. apply fk_get. intros n. destruct (has x (nodes n)); [apply fk_raise|].
    apply fk_bind.
    { destruct es; [apply fk_ret|]. destruct (pshape t); [apply fk_ret|apply fk_raise]. }
    intros [legs mut]. apply fk_bind; [apply fk_same; auto|intros _].
    apply fk_bind; [apply fk_foreach; intros p; apply fk_add_leg|intros _].
    apply fk_bind; [intros k; apply fk_graph_connect|intros _].
    apply fk_bind; [apply fk_update_node|intros _].
    apply fk_bind; [|intros _; apply fk_ret].
    destruct op; [|apply fk_ret]. apply fk_foreach. intros; apply fk_open_edge.
  Qed.
  Lemma fk_fix_edge e vals : always fixes_kept (fix_edge (T := T) e vals false).
  Proof.
    unfold fix_edge. intros n. cbv [mbind getst]. destruct (get e (edges n)) as [ed|] eqn:G; [|apply fk_refl].
    destruct (e_dim ed) as [d|]; [|apply fk_refl]. destruct (forallb _ _); [|apply fk_refl].
    destruct (e_fix ed) as [old|] eqn:E; apply fk_set; simpl; intros fx Q F; inversion Q; subst; apply NoDup_filter.
    - eapply F; eauto.
    - apply seq_NoDup.
  Qed.
  Lemma fk_fix1 n e : fixes_kept n (fix1 n e).
  Proof.
    unfold fix1. destruct (get e (edges n)) as [ed|]; [|apply fk_refl].
    destruct (e_fix ed); [|apply fk_refl].
    destruct (fold_map_legs (filter (fun i => negb (eqb e i))) n (dedup_NoDup (adj_nodes n e)))
      as (E1 & _).
    fold (strip_leg (T := T) e) in E1. cbv zeta.
    destruct (mem _ _).
    - apply fk_eq; auto.
    - eapply fk_trans; [|apply fk_del]. apply fk_eq; auto.
  Qed.
  Lemma fk_fix_all n : fixes_kept n (fix_all n).
  Proof.
    unfold fix_all. generalize (keys (edges n)). intros l; revert n; induction l as [|e r IH]; simpl; intros n.
    - apply fk_refl.
    - eapply fk_trans; [|apply IH]. apply fk_fix1.
  Qed.
  Lemma fk_merge1 m e : always fixes_kept (merge1 (T := T) m e).
  Proof.
    unfold merge1. apply fk_get. intros n.
    destruct (get e (edges n)) as [ed|]; [|apply fk_raise].
    apply fk_bind.
    - destruct (e_fix ed); [|apply fk_ret]. apply fk_fix_edge.
    - intros _. apply fk_bind; [apply fk_same; auto|]. intros _.
      destruct (eqb e m); [apply fk_ret|]. intros k; apply fk_del.
  Qed.
  Lemma fk_last_dim es : forall d, always fixes_kept (last_dim (T := T) es d).
  Proof.
    induction es as [|e r IH]; intros d; cbn [last_dim]; [apply fk_ret|].
    apply fk_get. intros n. destruct (get e (edges n)); [apply IH|apply fk_raise].
  Qed.
  Lemma fk_merge_edges es mt : always fixes_kept (merge_edges (T := T) es mt).
  Proof.
    unfold merge_edges. apply fk_bind; [apply fk_last_dim|]. intros d. apply fk_bind.
    { assert (KK : forall mt0, always fixes_kept (let! n := getst in
         if has mt0 (edges n) then ret mt0 else add_edge (T := T) mt0 None)).
      { intros mt0. apply fk_get. intros k. destruct (has mt0 (edges k)); [apply fk_ret|apply fk_add_edge]. }
      destruct mt; try apply KK. intros k; apply fk_refl. }
    intros m. apply fk_bind; [apply fk_update_dimension|]. intros _. apply fk_get. intros n.
    apply fk_bind; [apply fk_foreach; intros; apply fk_merge1|]. intros _.
    apply fk_bind; [apply fk_same; intros; apply fold_legs_edges|]. intros _.
    apply fk_bind; [apply fk_same; auto|]. intros _. apply fk_get. intros k.
    destruct (forallb _ _); [apply fk_ret|apply fk_raise].
  Qed.
  Lemma fk_rewire x leg to : always fixes_kept (rewire x leg to).
  Proof.
    unfold rewire. apply fk_get. intros n. destruct (get x (nodes n)) as [nd|]; [|apply fk_raise].
    destruct (n_val nd) as [t|]; [|apply fk_raise].
    apply fk_bind.
    { destruct (pshape t) as [sh|]; [destruct (nth_error sh leg)|];
        solve [apply fk_ret|apply fk_raise]. }
    intros d. destruct (nth_error (n_legs nd) leg) as [old|]; [|apply fk_raise].
    apply fk_bind; [destruct (has to (edges n)); [apply fk_ret|apply fk_add_edge]|].
    intros to'. destruct (n_mut nd); [|apply fk_raise].
    apply fk_bind.
    { apply fk_same. intros k. unfold set_legs. destruct (get x (nodes k)); auto. }
    intros _. apply fk_bind; [apply fk_same; auto|]. intros _.
    destruct (mem _ _); [apply fk_ret|]. apply fk_get. intros k.
    destruct (mem _ _); [|apply fk_raise]. apply fk_same; auto.
  Qed.
  Lemma fk_dim_of e : always fixes_kept (dim_of (T := T) e).
  Proof.
    unfold dim_of. apply fk_get. intros n. destruct (get e (edges n)) as [ed|]; [|apply fk_raise].
    destruct (e_dim ed); [apply fk_ret|apply fk_raise].
  Qed.
  Lemma fk_delta_open l : forall cnt, always fixes_kept (delta_open l cnt).
  Proof.
    induction l as [|[i e] r IH]; intros cnt; cbn [delta_open]; [apply fk_ret|].
    destruct (get e cnt); [|apply IH].
    apply fk_bind; [apply fk_dim_of|]. intros d.
    apply fk_bind; [apply fk_add_node|]. intros _.
    apply fk_bind; [apply fk_same; auto|]. intros _. apply IH.
  Qed.
  Lemma fk_delta_fix old p : always fixes_kept (delta_fix old p).
  Proof.
    destruct p as [e k]. unfold delta_fix. apply fk_get. intros n.
    destruct (get e (edges n)) as [ed|] eqn:G; [|apply fk_raise].
    destruct (e_fix ed) as [fx|].
    - apply fk_bind; [apply fk_dim_of|]. intros d. apply fk_bind.
      + intros j. apply fk_set. discriminate.
      + intros _. apply fk_bind; [apply fk_add_node|]. intros; apply fk_ret.
    - destruct (_ && _); [|apply fk_ret].
      apply fk_bind; [apply fk_dim_of|]. intros d.
      apply fk_bind; [apply fk_add_node|]. intros; apply fk_ret.
  Qed.
  Lemma fk_complete_delta : always fixes_kept (complete_delta (T := T)).
  Proof.
    unfold complete_delta. apply fk_get. intros n. destruct (has star (nodes n)); [apply fk_ret|].
    cbv zeta. apply fk_bind.
    { destruct (nodes n); [|apply fk_ret]. apply fk_bind; [apply fk_add_node|]. intros; apply fk_ret. }
    intros _. apply fk_bind; [apply fk_delta_open|]. intros cnt. apply fk_foreach.
    intros; apply fk_delta_fix.
  Qed.
  Lemma fk_drop {A} (m : M A) : always fixes_kept m -> always fixes_kept (drop m).
  Proof. intros. apply fk_bind; auto. intros; apply fk_ret. Qed.
  Lemma fk_pop x : always fixes_kept (pop_node (T := T) x).
  Proof.
    unfold pop_node. apply fk_get. intros n. destruct (get x (nodes n)); [|apply fk_raise].
    apply fk_bind; [apply fk_same; auto|]. intros; apply fk_ret.
  Qed.

  (** the calls other than fix_edge(..., change_fix=True) *)
  Definition no_change_fix (c : call T) : Prop :=
    match c with CFixEdge _ _ true => False | _ => True end.
  Lemma call_fix_nodup c n : no_change_fix c -> fixes_kept n (fst (do_call c n)).
  Proof.
    destruct c; simpl; intros Hc.
    - apply fk_drop, fk_add_edge.
    - apply fk_update_dimension.
    - apply fk_open_edge.
    - apply fk_eq; auto.
    - apply fk_drop, fk_add_node.
    - apply fk_update_node.
    - apply fk_drop, fk_pop.
    - apply fk_drop. unfold remove_node. apply fk_bind; [apply fk_pop|]. intros nd.
      apply fk_bind; [apply fk_same; auto|]. intros; apply fk_ret.
    - destruct change_fix; [tauto|]. apply fk_fix_edge.
    - unfold fix_index. match goal with |- fixes_kept n (fst (?m n)) => assert (Q : always fixes_kept m); [|apply Q] end.
      apply fk_get. intros k. destruct (nth_error (opens k) i); [|apply fk_raise].
      apply fk_bind; [apply fk_fix_edge|]. intros _. apply fk_same; auto.
    - apply fk_fix_all.
    - apply fk_complete_delta.
    - apply fk_drop, fk_merge_edges.
    - apply fk_rewire.
  Qed.
  Lemma reach_fix_nodup (ok : net -> call T -> Prop) n n' :
    (forall n c, ok n c -> no_change_fix c) -> reach ok n n' -> fix_nodup n -> fix_nodup n'.
  Proof.
    intros Hok R. induction R as [|n n1 n2 c R IH Hc E]; auto. intros F.
    pose proof (@call_fix_nodup c n1 (Hok _ _ Hc) (IH F)) as Q. unfold succeeds in E. rewrite E in Q. exact Q.
  Qed.

  (** ** automatic names *)
  Lemma nat_str_inj a b : nat_str a = nat_str b -> a = b.
  Proof.
    unfold nat_str. intros E. apply (f_equal NilEmpty.uint_of_string) in E.
    rewrite !NilEmpty.usu in E. inversion E as [Q]. apply (f_equal Nat.of_uint) in Q.
    rewrite !Unsigned.of_to in Q. auto.
  Qed.
  Lemma auto_name_inj a b : auto_name a = auto_name b -> a = b.
  Proof. unfold auto_name. intros E. inversion E. apply nat_str_inj; auto. Qed.

  (** no later automatic name is in use *)
  Definition auto_free n : Prop := forall k, idc n <= k -> ~ In (auto_name k) (keys (edges n)).

  Lemma add_edge_fresh_name d n n' r :
    auto_free n -> add_edge NN d n = (n', r) ->
    exists e, r = Ok e /\ ~ In e (keys (edges n)) /\ get e (edges n') = Some (Edge d None) /\
      (forall a, a <> e -> get a (edges n') = get a (edges n)) /\ keys (edges n') = keys (edges n) ++ [e] /\
      nodes n' = nodes n /\ adj n' = adj n /\ opens n' = opens n /\ auto_free n'.
  Proof.
    intros F E. unfold add_edge in E. cbv [mbind getst modify ret] in E.
    assert (Na : ~ In (auto_name (idc n)) (keys (edges n))) by (apply F; lia).
    assert (Hh : has (auto_name (idc n)) (edges n) = false).
    { destruct (has _ (edges n)) eqn:Q; auto. apply has_In in Q; tauto. }
    rewrite Hh in E. inversion E; subst. clear E. exists (auto_name (idc n)). simpl.
    split; [auto|]. split; [auto|]. split; [rewrite get_snoc, eqb_refl; auto|].
    split; [intros a Q; rewrite get_snoc, (proj2 (eqb_neq _ _) Q); auto|].
    split; [rewrite keys_app; auto|]. split; [auto|]. split; [auto|]. split; [auto|].
    intros k Hk. simpl in *. rewrite keys_app, in_app_iff. intros [Q|[Q|[]]].
    - apply (F k); [lia|auto].
    - simpl in Q. apply auto_name_inj in Q. lia.
  Qed.

  (** [c0] bounds the counter from below; a name is safe when no later automatic name equals it *)
  Section Counter.
  Variable c0 : nat.
  Definition not_auto e : Prop := forall k, c0 <= k -> e <> auto_name k.
  Definition af n n' : Prop := c0 <= idc n -> auto_free n -> auto_free n' /\ idc n <= idc n'.
  Lemma af_refl n : af n n. Proof. unfold af; auto. Qed.
  Lemma af_trans a b c : af a b -> af b c -> af a c.
  Proof. unfold af. intros H1 H2 L F. destruct (H1 L F) as [F1 L1]. destruct (H2 (Nat.le_trans _ _ _ L L1) F1). split; auto. lia. Qed.
  Lemma af_bind {A B} (m : M A) (f : A -> M B) :
    always af m -> (forall a, always af (f a)) -> always af (mbind m f).
  Proof. apply always_bind. apply af_trans. Qed.
  Lemma af_foreach {X} (f : X -> M unit) l : (forall a, In a l -> always af (f a)) -> always af (foreach f l).
  Proof.
    induction l as [|a r IH]; intros Q; [intros n; apply af_refl|]. cbn [foreach].
    apply af_bind; [apply Q; simpl; auto|]. intros _. apply IH. intros; apply Q; simpl; auto.
  Qed.
  Lemma af_ret {A} (a : A) : always af (ret a). Proof. intros n; apply af_refl. Qed.
  Lemma af_raise {A} (q : exn) : always af (raise (A := A) q). Proof. intros n; apply af_refl. Qed.
  Lemma af_get {A} (f : net -> M A) : (forall n, always af (f n)) -> always af (let! n := getst in f n).
  Proof. intros Hf n. apply Hf. Qed.
  Lemma af_sub n n' : idc n' = idc n ->
    (forall e, In e (keys (edges n')) -> In e (keys (edges n)) \/ not_auto e) -> af n n'.
  Proof.
    intros Ei Q L F. split; [|lia]. intros k Hk I. apply Q in I as [I|I].
    - apply (F k); [lia|auto].
    - apply (I k); [lia|auto].
  Qed.
  Lemma af_mod f : (forall n, idc (f n) = idc n) ->
    (forall n e, In e (keys (edges (f n))) -> In e (keys (edges n)) \/ not_auto e) -> always af (modify f).
  Proof. intros H1 H2 n. apply af_sub; simpl; auto. Qed.
  Lemma af_same f : (forall n, idc (f n) = idc n) -> (forall n, edges (f n) = edges n) -> always af (modify f).
  Proof. intros H1 H2. apply af_mod; auto. intros n e. rewrite H2; auto. Qed.
  Lemma af_set n e ed : In e (keys (edges n)) -> af n (with_edges n (set e ed (edges n))).
  Proof. intros I. apply af_sub; auto. simpl. intros a. rewrite keys_set_In. intros [->|]; auto. Qed.

  Lemma af_update_dim1 e d : always af (update_dim1 (T := T) e d).
  Proof.
    unfold update_dim1. intros n. cbv [mbind getst]. destruct (get e (edges n)) as [ed|] eqn:G; [|apply af_refl].
    destruct (e_dim ed); [destruct d; [destruct (_ =? _)|]; apply af_refl|].
    apply af_set. eapply get_Some_key; eauto.
  Qed.
  Lemma af_update_dimension dic : always af (update_dimension (T := T) dic).
  Proof. apply af_foreach. intros; apply af_update_dim1. Qed.
  Lemma af_add_edge e d : not_auto e -> always af (add_edge (T := T) e d).
  Proof.
    intros Na. destruct (eq_dec_of_eqb e NN) as [->|N].
    - intros n L F. destruct (add_edge NN d n) as [n' r] eqn:E. simpl.
      destruct (@add_edge_fresh_name d n n' r F E) as (a & _ & _ & _ & _ & _ & _ & _ & _ & F'). split; auto.
      unfold add_edge in E. cbv [mbind getst modify ret] in E.
      assert (Hh : has (auto_name (idc n)) (edges n) = false).
      { destruct (has _ (edges n)) eqn:Q; auto. apply has_In in Q. exfalso. apply (F (idc n)); auto. }
      rewrite Hh in E. inversion E; subst; simpl; lia.
    - unfold add_edge. apply af_get. intros n.
      assert (Q : always af ((if has e (edges n) then match d with None => ret tt | Some _ => update_dimension (T := T) [(e, d)] end
                              else modify (fun n => with_edges n (edges n ++ [(e, Edge d None)]))) ;; ret e)).
      { apply af_bind; [|intros; apply af_ret]. destruct (has e (edges n)).
        - destruct d; [apply af_update_dimension|apply af_ret].
        - apply af_mod; auto. intros k a. simpl. rewrite keys_app, in_app_iff.
          intros [I|[<-|[]]]; auto. }
      destruct e; try congruence; intros k; exact (Q k).
  Qed.
  Lemma not_auto_NN : not_auto NN. Proof. intros k; discriminate. Qed.
  Lemma not_auto_NI z : not_auto (NI z). Proof. intros k; discriminate. Qed.
  Lemma not_auto_NT l : not_auto (NT l). Proof. intros k; discriminate. Qed.

  Lemma af_open_edge e d : not_auto e -> always af (open_edge (T := T) e d).
  Proof.
    intros Na. unfold open_edge. apply af_get. intros n. apply af_bind; [|intros; apply af_same; auto].
    destruct (has e (edges n)); [apply af_ret|]. apply af_bind; [apply af_add_edge; auto|]. intros; apply af_ret.
  Qed.
  Lemma af_update_node x t : always af (update_node x t).
  Proof.
    unfold update_node. apply af_get. intros n. destruct (get x (nodes n)) as [nd|]; [|apply af_raise].
    apply af_bind; [apply af_same; auto|]. intros _. destruct (pshape t).
    - destruct (_ <=? _); [apply af_update_dimension|apply af_raise].
    - apply af_update_dimension.
  Qed.
  Lemma af_graph_connect x es n : (forall e, In e es -> not_auto e) -> af n (graph_connect x es n).
  Proof.
    intros Na. unfold graph_connect. set (n1 := fold_left _ es n).
    assert (C : af n n1).
    { unfold n1. clear n1. revert n; induction es as [|e r IH]; simpl; intros n; [apply af_refl|].
      eapply af_trans; [|apply IH; intros; apply Na; simpl; auto]. destruct (has e (edges n)); [apply af_refl|].
      apply af_sub; auto. simpl. intros a. rewrite keys_app, in_app_iff.
      intros [I|[<-|[]]]; auto. right. apply Na; simpl; auto. }
    exact C.
  Qed.
  Lemma af_add_leg sh p : not_auto (snd p) -> always af (add_leg (T := T) sh p).
  Proof.
    intros Na. unfold add_leg. destruct sh as [l|].
    - destruct (nth_error l (fst p)); [|apply af_raise]. apply af_bind; [apply af_add_edge; auto|intros; apply af_ret].
    - apply af_bind; [apply af_add_edge; auto|intros; apply af_ret].
  Qed.
  Lemma af_add_node x es t op : match es with Some l => forall e, In e l -> not_auto e | None => True end ->
    always af (add_node x es t op).
  Proof.
    intros Na. unfold add_node. apply af_get. intros n. destruct (has x (nodes n)); [apply af_raise|].
    set (body := fun p : list name * bool => _).
    assert (Q : forall legs mut, (forall e, In e legs -> not_auto e) -> always af (body (legs, mut))).
    { intros legs mut Hl. unfold body. apply af_bind; [apply af_same; auto|intros _].
      apply af_bind; [apply af_foreach; intros [i e] Ip; apply af_add_leg|intros _].
      { simpl. apply Hl. eapply in_combine_r; exact Ip. }
      apply af_bind; [intros k; apply af_graph_connect; auto|intros _].
      apply af_bind; [apply af_update_node|intros _].
      apply af_bind; [|intros _; apply af_ret].
      destruct op; [|apply af_ret]. apply af_foreach. intros; apply af_open_edge; auto. }
    destruct es as [l|].
    - intros k. exact (Q l true Na k).
    - destruct (pshape t) as [sh|].
      + intros k. refine (Q (range_names (length sh)) false _ k). intros e Ie.
        unfold range_names in Ie. apply in_map_iff in Ie as [i [<- _]]. apply not_auto_NI.
      + intros k. apply af_refl.
  Qed.
  Lemma af_fix_edge e vals c : always af (fix_edge (T := T) e vals c).
  Proof.
    unfold fix_edge. intros n. cbv [mbind getst]. destruct (get e (edges n)) as [ed|] eqn:G; [|apply af_refl].
    pose proof (get_Some_key _ _ G) as I.
    destruct (e_dim ed) as [d|]; [|apply af_refl]. destruct (forallb _ _); [|apply af_refl].
    destruct (e_fix ed) as [old|]; [destruct c; [destruct (filter _ _), old|]|]; try apply af_refl; apply af_set; auto.
  Qed.
  Lemma af_del n e : af n (graph_del_edge n e).
  Proof. apply af_sub; auto. simpl. intros a. rewrite keys_del_In. tauto. Qed.
  Lemma map_legs_idc (f : list name -> list name) n x : idc (map_legs f n x) = idc n.
  Proof. unfold map_legs, set_legs. destruct (get x (nodes n)) eqn:G; auto; rewrite G; auto. Qed.
  Lemma fold_legs_idc f (L : list name) n : idc (fold_left (map_legs f) L n) = idc n.
  Proof. revert n; induction L as [|x r IH]; intros n; simpl; auto. rewrite IH. apply map_legs_idc. Qed.
  Lemma af_fix1 n e : af n (fix1 n e).
  Proof.
    unfold fix1. destruct (get e (edges n)) as [ed|]; [|apply af_refl].
    destruct (e_fix ed); [|apply af_refl].
    destruct (fold_map_legs (filter (fun i => negb (eqb e i))) n (dedup_NoDup (adj_nodes n e)))
      as (E1 & _).
    pose proof (fold_legs_idc (filter (fun i => negb (eqb e i))) (dedup (adj_nodes n e)) n) as E2.
    fold (strip_leg (T := T) e) in E1, E2. cbv zeta.
    assert (Q : af n (fold_left (strip_leg e) (dedup (adj_nodes n e)) n)).
    { apply af_sub; auto. rewrite E1; auto. }
    destruct (mem _ _).
    - eapply af_trans; [apply Q|]. apply af_sub; auto.
    - eapply af_trans; [apply Q|]. apply af_del.
  Qed.
  Lemma af_fix_all n : af n (fix_all n).
  Proof.
    unfold fix_all. generalize (keys (edges n)). intros l; revert n; induction l as [|e r IH]; simpl; intros n.
    - apply af_refl.
    - eapply af_trans; [|apply IH]. apply af_fix1.
  Qed.
  Lemma af_merge1 m e : always af (merge1 (T := T) m e).
  Proof.
    unfold merge1. apply af_get. intros n.
    destruct (get e (edges n)) as [ed|]; [|apply af_raise].
    apply af_bind.
    - destruct (e_fix ed); [|apply af_ret]. apply af_fix_edge.
    - intros _. apply af_bind; [apply af_same; auto|]. intros _.
      destruct (eqb e m); [apply af_ret|]. intros k; apply af_del.
  Qed.
  Lemma af_last_dim es : forall d, always af (last_dim (T := T) es d).
  Proof.
    induction es as [|e r IH]; intros d; cbn [last_dim]; [apply af_ret|].
    apply af_get. intros n. destruct (get e (edges n)); [apply IH|apply af_raise].
  Qed.
  Lemma af_merge_edges es mt : not_auto mt -> always af (merge_edges (T := T) es mt).
  Proof.
    intros Na. unfold merge_edges. apply af_bind; [apply af_last_dim|]. intros d. apply af_bind.
    { assert (KK : always af (let! n := getst in
         if has mt (edges n) then ret mt else add_edge (T := T) mt None)).
      { apply af_get. intros k. destruct (has mt (edges k)); [apply af_ret|apply af_add_edge; auto]. }
      destruct mt; try apply KK. intros k; apply af_refl. }
    intros m. apply af_bind; [apply af_update_dimension|]. intros _. apply af_get. intros n.
    apply af_bind; [apply af_foreach; intros; apply af_merge1|]. intros _.
    apply af_bind; [apply af_same; intros; [apply fold_legs_idc|apply fold_legs_edges]|]. intros _.
    apply af_bind; [apply af_same; auto|]. intros _. apply af_get. intros k.
    destruct (forallb _ _); [apply af_ret|apply af_raise].
  Qed.
  Lemma af_rewire x leg to : not_auto to -> always af (rewire x leg to).
  Proof.
    intros Na. unfold rewire. apply af_get. intros n. destruct (get x (nodes n)) as [nd|]; [|apply af_raise].
    destruct (n_val nd) as [t|]; [|apply af_raise].
    apply af_bind.
    { destruct (pshape t) as [sh|]; [destruct (nth_error sh leg)|];
        solve [apply af_ret|apply af_raise]. }
    intros d. destruct (nth_error (n_legs nd) leg) as [old|]; [|apply af_raise].
    apply af_bind; [destruct (has to (edges n)); [apply af_ret|apply af_add_edge; auto]|].
    intros to'. destruct (n_mut nd); [|apply af_raise].
    apply af_bind.
    { apply af_same; intros k; unfold set_legs; destruct (get x (nodes k)); auto. }
    intros _. apply af_bind; [apply af_same; auto|]. intros _.
    destruct (mem _ _); [apply af_ret|]. apply af_get. intros k.
    destruct (mem _ _); [|apply af_raise]. apply af_same; auto.
  Qed.
  Lemma af_dim_of e : always af (dim_of (T := T) e).
  Proof.
    unfold dim_of. apply af_get. intros n. destruct (get e (edges n)) as [ed|]; [|apply af_raise].
    destruct (e_dim ed); [apply af_ret|apply af_raise].
  Qed.
  Lemma af_delta_open l : (forall i e, In (i, e) l -> not_auto e) -> forall cnt, always af (delta_open l cnt).
  Proof.
    induction l as [|[i e] r IH]; intros Na cnt; cbn [delta_open]; [apply af_ret|].
    assert (Na' : forall i e, In (i, e) r -> not_auto e) by (intros; eapply Na; simpl; eauto).
    destruct (get e cnt); [|apply IH; auto].
    apply af_bind; [apply af_dim_of|]. intros d.
    apply af_bind; [apply af_add_node|intros _].
    { intros a [<-|[<-|[]]]; [|apply not_auto_NT]. eapply Na; simpl; eauto. }
    apply af_bind; [apply af_same; auto|]. intros _. apply IH; auto.
  Qed.
  Lemma af_delta_fix old p : not_auto (fst p) -> always af (delta_fix old p).
  Proof.
    intros Na. destruct p as [e k]. simpl in Na.
    assert (Nl : forall a, In a [e] -> not_auto a) by (intros a [<-|[]]; auto).
    unfold delta_fix. intros n. unfold mbind at 1. unfold getst at 1.
    destruct (get e (edges n)) as [ed|] eqn:G; [|apply af_refl].
    destruct (e_fix ed) as [fx|].
    - rewrite mbind_fst. destruct (dim_of e n) as [n1 [d|?]] eqn:D.
      + apply dim_of_spec in D as (-> & ed' & G' & D).
        set (m1 := with_edges n (set e (Edge (Some d) None) (edges n))).
        apply (@af_trans n m1).
        * apply af_set. eapply get_Some_key; eauto.
        * change (af m1 (fst ((let! _ := add_node (delta_node e 0) (Some [e])
                        (p_diag (map (fun i => mem i fx) (seq 0 d))) false in ret tt) m1))).
          apply af_bind; [apply af_add_node; auto|]. intros; apply af_ret.
      + pose proof (@af_dim_of e n) as K. rewrite D in K. exact K.
    - match goal with |- af n (fst (?m n)) => assert (A : always af m); [|apply A] end.
      destruct (_ && _); [|apply af_ret].
      apply af_bind; [apply af_dim_of|]. intros d.
      apply af_bind; [apply af_add_node; auto|]. intros; apply af_ret.
  Qed.
  Lemma delta_open_names l : forall cnt n n' cnt', delta_open l cnt n = (n', Ok cnt') ->
    forall e, In e (keys cnt') -> In e (keys cnt) \/ In e (map snd l).
  Proof.
    induction l as [|[i e] r IH]; intros cnt n n' cnt' E a Ia; cbn [delta_open] in E.
    - minvs. auto.
    - destruct (get e cnt) as [k|].
      + minv E. minv E. minv E. apply (IH _ _ _ _ E) in Ia. rewrite keys_set_In in Ia. simpl. intuition auto.
      + apply (IH _ _ _ _ E) in Ia. rewrite keys_set_In in Ia. simpl. intuition auto.
  Qed.
  Lemma af_complete_delta n : (forall e, In e (opens n) -> not_auto e) -> af n (fst (complete_delta n)).
  Proof.
    intros Na. unfold complete_delta. unfold mbind at 1. unfold getst at 1.
    destruct (has star (nodes n)); [apply af_refl|]. cbv zeta.
    rewrite mbind_fst.
    assert (A1 : always af (match nodes n with [] => let! _ := add_node star (Some []) p_one false in ret tt | _ => ret tt end)).
    { destruct (nodes n); [|apply af_ret]. apply af_bind; [apply af_add_node; intros ? []|]. intros; apply af_ret. }
    specialize (A1 n). match type of A1 with af n (fst ?t) => destruct t as [n1 [u|?]] end; [|exact A1].
    simpl in A1. apply (af_trans A1). rewrite mbind_fst.
    assert (A2 : always af (delta_open (enum (opens n)) [])).
    { apply af_delta_open. intros i e Ie. apply Na. eapply in_combine_r; exact Ie. }
    specialize (A2 n1). destruct (delta_open (enum (opens n)) [] n1) as [n2 [cnt|?]] eqn:E; [|exact A2].
    simpl in A2. apply (af_trans A2).
    match goal with |- af n2 (fst (?m n2)) => assert (A : always af m); [|apply A] end.
    apply af_foreach. intros [e k] Ie. apply af_delta_fix. simpl. apply Na.
    assert (Ik : In e (keys cnt)) by (apply in_map_iff; exists (e, k); auto).
    apply (delta_open_names _ _ _ E) in Ik as [[]|Ik]. apply in_map_iff in Ik as [[i a] [<- Ia]].
    eapply in_combine_r; exact Ia.
  Qed.
  Lemma af_drop {A} (m : M A) : always af m -> always af (drop m).
  Proof. intros. apply af_bind; auto. intros; apply af_ret. Qed.
  Lemma af_pop x : always af (pop_node (T := T) x).
  Proof.
    unfold pop_node. apply af_get. intros n. destruct (get x (nodes n)); [|apply af_raise].
    apply af_bind; [apply af_same; auto|]. intros; apply af_ret.
  Qed.
  End Counter.

  (** the edge names a call mentions *)
  Definition edge_names (c : call T) : list name :=
    match c with
    | CAddEdge e _ | COpenEdge e _ => [e]
    | CAddNode _ (Some l) _ _ => l
    | CMergeEdges _ mt => [mt]
    | CRewire _ _ to => [to]
    | _ => []
    end.
  (** every edge name mentioned is in use, or is None, or does not look like an automatic name *)
  Definition polite n (c : call T) : Prop :=
    forall e, In e (edge_names c) -> In e (keys (edges n)) \/ forall k, e <> auto_name k.

  Lemma call_auto_free c n : polite n c -> (forall e, In e (opens n) -> e = NN \/ In e (keys (edges n))) -> auto_free n -> auto_free (fst (do_call c n)).
  Proof.
    intros P Ho F.
    assert (Hs : forall e, In e (keys (edges n)) -> not_auto (idc n) e).
    { intros e Ie k Hk ->. apply (F k); auto. }
    assert (Na : forall e, In e (edge_names c) -> not_auto (idc n) e).
    { intros e Ie. destruct (P e Ie) as [Q|Q]; auto. intros k _; apply Q. }
    assert (A : af (idc n) n (fst (do_call c n))); [|apply A; auto].
    destruct c; simpl in *.
    - apply af_drop, af_add_edge; auto.
    - apply af_update_dimension.
    - apply af_open_edge; auto.
    - apply af_sub; auto.
    - apply af_drop, af_add_node. destruct es; auto.
    - apply af_update_node.
    - apply af_drop, af_pop.
    - apply af_drop. unfold remove_node. apply af_bind; [apply af_pop|]. intros nd.
      apply af_bind; [apply af_same; auto|]. intros; apply af_ret.
    - apply af_fix_edge.
    - unfold fix_index. match goal with |- af _ n (fst (?m n)) => assert (Q : always (af (idc n)) m); [|apply Q] end.
      apply af_get. intros k. destruct (nth_error (opens k) i); [|apply af_raise].
      apply af_bind; [apply af_fix_edge|]. intros _. apply af_same; auto.
    - apply af_fix_all.
    - apply af_complete_delta. intros e Ie. destruct (Ho e Ie) as [->|Q]; auto. apply not_auto_NN.
    - apply af_drop, af_merge_edges; auto.
    - apply af_rewire; auto.
  Qed.
  Lemma reach_auto_free (ok : net -> call T -> Prop) n n' :
    (forall n c, ok n c -> names_given c /\ polite n c) -> reach ok n n' -> inv n -> auto_free n -> auto_free n'.
  Proof.
    intros Hok R I F. assert (Q : inv n' /\ auto_free n'); [|apply Q].
    induction R as [|n n1 n2 c R IH Hc E]; auto. destruct (IH I F) as [I1 F1]. destruct (Hok _ _ Hc) as [G P].
    split; [eapply call_inv; eauto|].
    pose proof (@call_auto_free c n1 P) as Q. unfold succeeds in E. rewrite E in Q. apply Q; auto.
    intros e Ie. right. apply (wf_opens (proj1 I1)); auto.
  Qed.
End Edits.
