(** Value lemmas for the edit operations. *)
From Verif Require Import Base Scalar NetSpec Sums NetAlg ModelTN TNInv TNOps TNSpec TNMerge TNDelta.
Set Implicit Arguments.

Lemma assoc_perm {A B} `{Eqb A} (l m : list (A * B)) :
  NoDup (keys l) -> NoDup (keys m) -> (forall k, get k l = get k m) -> Permutation l m.
Proof.
  intros N1 N2 G.
  assert (ND : forall q : list (A * B), NoDup (keys q) -> NoDup q).
  { intros q. unfold keys. apply NoDup_map_inv. }
  apply NoDup_Permutation; auto. intros [k v]. split; intros I.
  - apply In_get in I; auto. rewrite G in I. apply get_In in I; auto.
  - apply In_get in I; auto. rewrite <- G in I. apply get_In in I; auto.
Qed.

Lemma perm_get_front {A B} `{Eqb A} (l : list (A * B)) k v :
  NoDup (keys l) -> get k l = Some v -> Permutation l ((k, v) :: del k l).
Proof.
  intros ND G. apply assoc_perm; auto.
  - simpl. constructor; [rewrite keys_del_In; tauto|]. apply keys_del_NoDup; auto.
  - intros k'. simpl. destruct (eqb_spec k' k) as [->|N]; auto. rewrite get_del_neq; auto.
Qed.

Lemma del_set {A B} `{Eqb A} (l : list (A * B)) k v : NoDup (keys l) ->
  Permutation (del k (set k v l)) (del k l).
Proof.
  intros ND. apply assoc_perm.
  - apply keys_del_NoDup, keys_set_NoDup; auto.
  - apply keys_del_NoDup; auto.
  - intros k'. destruct (eq_dec_of_eqb k k') as [<-|N]; [rewrite !get_del_eq; auto|].
    rewrite !get_del_neq, get_set_neq; auto.
Qed.

Section Value.
  Context {S : scalar} {T : Type} `{PT : Payload T}.
  Add Ring KringV : (kring S).
  Variable pv : T -> list nat -> S.
  Notation net := (tn T).
  Notation value := (tn_value pv).
  Implicit Types (n : net) (x e m : name).
  Open Scope K_scope.

  Definition dpair (p : name * edge) : name * list nat := (fst p, edge_values (snd p)).
  Lemma tn_dom_map n : tn_dom n = map dpair (edges n).
  Proof. reflexivity. Qed.
  Lemma keys_dpair (l : list (name * edge)) : keys (map dpair l) = keys l.
  Proof. unfold keys. rewrite map_map. auto. Qed.
  Lemma keys_tn_dom n : keys (tn_dom n) = keys (edges n).
  Proof. apply keys_dpair. Qed.

  (** the summand of the value *)
  Definition summand n (o : list nat) (s : env (A := name)) : S :=
    kdelta (eqb (map s (opens n)) o) * prodf (term_at s) (tn_terms pv n).
  Lemma summand_ext n o : exten (summand n o).
  Proof. apply summand_exten. Qed.
  Lemma value_summand n o : value n o = esum (tn_dom n) (summand n o) env0.
  Proof. reflexivity. Qed.

  (** ** the value only depends on what is attached to the names *)
  Record same_meaning n n' : Prop := {
    sm_nodes : NoDup (keys (nodes n));
    sm_nodes' : NoDup (keys (nodes n'));
    sm_edges : NoDup (keys (edges n));
    sm_edges' : NoDup (keys (edges n'));
    sm_dom : forall e, option_map edge_values (get e (edges n)) = option_map edge_values (get e (edges n'));
    sm_term : forall x, option_map (fun nd => (n_legs nd, n_val nd)) (get x (nodes n)) =
                        option_map (fun nd => (n_legs nd, n_val nd)) (get x (nodes n'));
    sm_opens : opens n = opens n'
  }.

  Lemma same_meaning_value n n' o : same_meaning n n' -> value n o = value n' o.
  Proof.
    intros [A1 A2 A3 A4 A5 A6 A7]. unfold tn_value. rewrite A7.
    assert (P1 : Permutation (tn_dom n) (tn_dom n')).
    { apply assoc_perm; rewrite ?keys_tn_dom; auto. intros e. unfold tn_dom.
      rewrite !(get_map (B := edge)). auto. }
    assert (P2 : Permutation (tn_terms pv n) (tn_terms pv n')).
    { unfold tn_terms.
      set (f := fun nd : node T => (n_legs nd, n_val nd)).
      set (g := fun p : name * (list name * option T) =>
                  Term (fst (snd p)) (match snd (snd p) with Some t => pv t | None => fun _ => 0%K end)).
      assert (E : forall l : list (name * node T), map (node_term pv) l = map g (map (fun p => (fst p, f (snd p))) l)).
      { intros l. rewrite map_map. apply map_ext. intros [a b]; auto. }
      rewrite !E. apply Permutation_map. apply assoc_perm.
      - rewrite keys_map; auto.
      - rewrite keys_map; auto.
      - intros x. rewrite !get_map. apply A6. }
    rewrite (net_value_terms_perm _ _ _ P2).
    apply net_value_dom_perm; auto. rewrite keys_tn_dom; auto.
  Qed.

  Lemma tn_terms_with_opens n l : tn_terms pv (with_opens n l) = tn_terms pv n.
  Proof. reflexivity. Qed.
  Lemma tn_terms_with_edges n l : tn_terms pv (with_edges n l) = tn_terms pv n.
  Proof. reflexivity. Qed.
  Lemma tn_terms_with_adj n l : tn_terms pv (with_adj n l) = tn_terms pv n.
  Proof. reflexivity. Qed.

  (** ** pulling one edge to the front *)
  Lemma value_front n e ed o :
    NoDup (keys (edges n)) -> get e (edges n) = Some ed ->
    value n o = esum ((e, edge_values ed) :: map dpair (del e (edges n))) (summand n o) env0.
  Proof.
    intros ND G. rewrite value_summand. apply esum_perm.
    - rewrite tn_dom_map. apply (Permutation_map dpair) in G || idtac.
      change ((e, edge_values ed) :: map dpair (del e (edges n)))
        with (map dpair ((e, ed) :: del e (edges n))).
      apply Permutation_map, perm_get_front; auto.
    - rewrite keys_tn_dom; auto.
    - apply summand_ext.
  Qed.
  Lemma del_notin e (l : list (name * edge)) : ~ In e (keys (map dpair (del e l))).
  Proof. rewrite keys_dpair, keys_del_In. tauto. Qed.

  Lemma value_set_edge n e ed ed' o :
    NoDup (keys (edges n)) -> get e (edges n) = Some ed ->
    value (with_edges n (set e ed' (edges n))) o =
    esum ((e, edge_values ed') :: map dpair (del e (edges n))) (summand n o) env0.
  Proof.
    intros ND G. rewrite value_front with (e := e) (ed := ed').
    - simpl. apply sumf_ext. intros v _. apply esum_perm.
      + apply Permutation_map, del_set; auto.
      + rewrite keys_dpair. apply keys_del_NoDup, keys_set_NoDup; auto.
      + apply (summand_ext n o).
    - simpl. apply keys_set_NoDup; auto.
    - simpl. apply get_set_eq.
  Qed.

  (** ** fixing *)
  Lemma ins_eqb (s : env (A := name)) l i e v o :
    nth_error l i = Some e ->
    eqb (map s l) (ins_nth i v o) = eqb (s e) v && eqb (map s (del_nth i l)) o.
  Proof.
    revert i o; induction l as [|a r IH]; intros [|i] o E; simpl in E; try discriminate.
    - inversion E; subst a. reflexivity.
    - destruct o as [|b q].
      + unfold ins_nth, del_nth. simpl. destruct (map s r) eqn:Q.
        * destruct r; [destruct i|]; discriminate.
        * rewrite !(proj2 (eqb_neq _ _)) by discriminate. rewrite andb_false_r; auto.
      + change (ins_nth (Datatypes.S i) v (b :: q)) with (b :: ins_nth i v q).
        change (del_nth (Datatypes.S i) (a :: r)) with (a :: del_nth i r).
        change (map s (a :: r)) with (s a :: map s r).
        change (map s (a :: del_nth i r)) with (s a :: map s (del_nth i r)).
        change (eqb (s a :: map s r) (b :: ins_nth i v q)) with (eqb (s a) b && eqb (map s r) (ins_nth i v q)).
        change (eqb (s a :: map s (del_nth i r)) (b :: q)) with (eqb (s a) b && eqb (map s (del_nth i r)) q).
        rewrite IH by auto. destruct (eqb (s a) b), (eqb (s e) v); auto.
  Qed.

  Lemma kdelta_and a b : (kdelta (a && b) : S) = kdelta a * kdelta b.
  Proof. destruct a, b; simpl; ring. Qed.

  (** no edge is fixed to a list with repetitions *)
  Definition fix_nodup n : Prop :=
    forall e ed fx, get e (edges n) = Some ed -> e_fix ed = Some fx -> NoDup fx.
  Lemma edge_values_nodup n e ed : fix_nodup n -> get e (edges n) = Some ed -> NoDup (edge_values ed).
  Proof.
    intros F G. unfold edge_values. destruct (e_fix ed) as [fx|] eqn:Q; eauto.
    destruct (e_dim ed); [apply seq_NoDup|constructor].
  Qed.

  Lemma fix_edge_values e vals n n' r :
    fix_edge e vals false n = (n', Ok r) ->
    exists ed ed', get e (edges n) = Some ed /\ n' = with_edges n (set e ed' (edges n)) /\
      e_dim ed' = e_dim ed /\ edge_values ed' = filter (fun v => mem v vals) (edge_values ed) /\
      e_fix ed' = Some (edge_values ed').
  Proof.
    intros E. apply fix_edge_spec in E as (ed & d & G & D & _ & fx & -> & Q).
    exists ed. eexists. split; [exact G|]. split; [reflexivity|]. simpl. split; [auto|]. split; [|auto].
    unfold edge_values. simpl. destruct (e_fix ed); subst; auto. rewrite D; auto.
  Qed.

  (** the sum over a set of values, whichever way it is written *)
  Lemma sumf_filter_swap (f : nat -> S) (l m : list nat) : NoDup l -> NoDup m ->
    sumf f (filter (fun v => mem v l) m) = sumf f (filter (fun v => mem v m) l).
  Proof.
    intros Nl Nm. apply sumf_perm. apply NoDup_Permutation; try (apply NoDup_filter; auto).
    intros v. rewrite !filter_In, !mem_In. tauto.
  Qed.

  Lemma value_fix_edge e vals n n' r o :
    NoDup (keys (edges n)) -> fix_edge e vals false n = (n', Ok r) ->
    value n' o = esum (tn_dom n) (fun s => kdelta (mem (s e) vals) * summand n o s) env0.
  Proof.
    intros ND E. apply fix_edge_values in E as (ed & ed' & G & -> & _ & V & _).
    rewrite value_set_edge with (ed := ed) by auto. rewrite V.
    rewrite <- esum_restrict by apply del_notin.
    symmetry. apply esum_perm.
    - change ((e, edge_values ed) :: map dpair (del e (edges n)))
        with (map dpair ((e, ed) :: del e (edges n))).
      apply Permutation_map, perm_get_front; auto.
    - rewrite keys_tn_dom; auto.
    - intros s s' Es. rewrite Es. f_equal. apply summand_ext; auto.
  Qed.

  Lemma value_fix_index i vals n n' r o :
    NoDup (keys (edges n)) -> fix_nodup n -> NoDup vals -> fix_index i vals n = (n', Ok r) ->
    value n' o = sumf (fun v => value n (ins_nth i v o)) vals.
  Proof.
    intros ND Fx NV E. apply fix_index_spec in E as (e & n1 & Ni & E & ->).
    apply fix_edge_values in E as (ed & ed' & G & -> & _ & V & _). simpl.
    set (rest := map dpair (del e (edges n))).
    set (F := fun s => kdelta (eqb (map s (del_nth i (opens n))) o) * prodf (term_at s) (tn_terms pv n)).
    assert (EF : exten F) by (apply summand_exten).
    transitivity (esum ((e, edge_values ed') :: rest) F env0).
    { pose proof (@value_set_edge (with_opens n (del_nth i (opens n))) e ed ed' o ND G) as Q.
      exact Q. }
    assert (Q : forall v, value n (ins_nth i v o) =
              kdelta (mem v (edge_values ed)) * esum rest F (upd env0 e v)).
    { intros v. rewrite (@value_front n e ed (ins_nth i v o) ND G).
      rewrite <- esum_pin.
      - apply esum_ext_all. intros s. unfold summand, F. rewrite (@ins_eqb s _ _ _ v o Ni).
        rewrite kdelta_and. ring.
      - eapply edge_values_nodup; eauto.
      - apply del_notin. }
    rewrite (sumf_ext _ _ _ (fun v _ => Q v)). rewrite sumf_delta. simpl. rewrite V.
    apply sumf_filter_swap; auto. eapply edge_values_nodup; eauto.
  Qed.

  (** ** opening and closing *)
  (** the index of [l] obtained by putting [v] at the places of [e] and [o] at the others *)
  Fixpoint reinsert e (v : nat) (l : list name) (o : list nat) : list nat :=
    match l with
    | [] => o
    | a :: r => if eqb e a then v :: reinsert e v r o
                else match o with [] => [] | b :: q => b :: reinsert e v r q end
    end.
  Lemma reinsert_eqb (s : env (A := name)) e v l o : s e = v ->
    eqb (map s l) (reinsert e v l o) = eqb (map s (filter (fun a => negb (eqb e a)) l)) o.
  Proof.
    intros Es. revert o; induction l as [|a r IH]; intros o; simpl; auto.
    destruct (eqb_spec e a) as [<-|N]; simpl.
    - rewrite Es. change (eqb (v :: map s r) (v :: reinsert e v r o))
        with (eqb v v && eqb (map s r) (reinsert e v r o)). rewrite eqb_refl. apply IH.
    - destruct o as [|b q].
      + rewrite !(proj2 (eqb_neq _ _)) by discriminate; auto.
      + change (eqb (s a) b && eqb (map s r) (reinsert e v r q) =
                eqb (s a) b && eqb (map s (filter (fun a => negb (eqb e a)) r)) q). rewrite IH; auto.
  Qed.
  Lemma reinsert_neq (s : env (A := name)) e v l o : In e l -> s e <> v ->
    eqb (map s l) (reinsert e v l o) = false.
  Proof.
    intros I Ne. revert o I; induction l as [|a r IH]; intros o I; simpl in *; [tauto|].
    destruct (eqb_spec e a) as [<-|N].
    - change (eqb (s e) v && eqb (map s r) (reinsert e v r o) = false).
      rewrite (proj2 (eqb_neq _ _) Ne). auto.
    - destruct I as [I|I]; [congruence|]. destruct o as [|b q].
      + apply eqb_neq; discriminate.
      + change (eqb (s a) b && eqb (map s r) (reinsert e v r q) = false).
        rewrite IH by auto. apply andb_false_r.
  Qed.

  Lemma value_close_edge e ed n n' r o :
    NoDup (keys (edges n)) -> fix_nodup n -> get e (edges n) = Some ed -> In e (opens n) ->
    close_edge e n = (n', Ok r) ->
    value n' o = sumf (fun v => value n (reinsert e v (opens n) o)) (edge_values ed).
  Proof.
    intros ND Fx G I E. unfold close_edge in E. minvs.
    set (n' := with_opens n _).
    rewrite (@value_front n' e ed o ND G). simpl. apply sumf_ext. intros v Iv.
    rewrite (@value_front n e ed (reinsert e v (opens n) o) ND G).
    transitivity (kdelta (mem v (edge_values ed)) *
                  esum (map dpair (del e (edges n))) (summand n' o) (upd env0 e v)).
    { apply mem_In in Iv. rewrite Iv. simpl. ring. }
    rewrite <- esum_pin; [|eapply edge_values_nodup; eauto|apply del_notin].
    apply esum_ext_all. intros s. unfold summand, n'. simpl. rewrite tn_terms_with_opens. destruct (eqb_spec (s e) v) as [Es|Es].
    - rewrite reinsert_eqb by auto. cbn [kdelta]. rewrite kmul_1_l. reflexivity.
    - rewrite reinsert_neq by auto. simpl. ring.
  Qed.
  Lemma value_close_other e n n' r o :
    ~ In e (opens n) -> close_edge e n = (n', Ok r) -> value n' o = value n o.
  Proof.
    intros I E. unfold close_edge in E. minvs. rewrite filter_negb_notin by auto.
    destruct n; auto.
  Qed.

  Lemma snoc_eqb (s : env (A := name)) l e o v :
    eqb (map s (l ++ [e])) (o ++ [v]) = eqb (map s l) o && eqb (s e) v.
  Proof.
    rewrite map_app. simpl. apply eq_true_iff_eq. rewrite andb_true_iff, !eqb_eq. split.
    - intros Q. apply app_inj_tail in Q. auto.
    - intros [-> ->]; auto.
  Qed.

  (** opening an edge splits the value by the edge's value *)
  Lemma value_open_edge e d n n' r o v n1 r1 :
    NoDup (keys (edges n)) -> fix_nodup n ->
    open_edge e d n = (n', Ok r) -> In e (keys (edges n)) ->
    fix_edge e [v] false n = (n1, Ok r1) ->
    value n' (o ++ [v]) = value n1 o.
  Proof.
    intros ND Fx E I E1. rewrite (@value_fix_edge _ _ _ _ _ _ ND E1).
    unfold open_edge in E. minv E. apply has_In in I. rewrite I in E0. minvs.
    rewrite value_summand. simpl. apply esum_ext_all. intros s. unfold summand. simpl.
    rewrite snoc_eqb, kdelta_and. unfold mem. simpl. rewrite orb_false_r, tn_terms_with_opens. ring.
  Qed.
  Lemma value_open_sum e d n n' r o ed :
    NoDup (keys (edges n)) -> fix_nodup n ->
    open_edge e d n = (n', Ok r) -> get e (edges n) = Some ed ->
    sumf (fun v => value n' (o ++ [v])) (edge_values ed) = value n o.
  Proof.
    intros ND Fx E G. pose proof (get_Some_key _ _ G) as I. apply has_In in I.
    unfold open_edge in E. minv E. rewrite I in E0. minvs. rename n0 into n.
    set (n' := with_opens n _).
    rewrite (@value_front n e ed o ND G).
    transitivity (sumf (fun v => kdelta (mem v (edge_values ed)) *
                  esum (map dpair (del e (edges n))) (summand n o) (upd env0 e v)) (edge_values ed)).
    - apply sumf_ext. intros v Iv. rewrite <- esum_pin;
        [|eapply edge_values_nodup; eauto|apply del_notin].
      rewrite (@value_front n' e ed (o ++ [v]) ND G). apply esum_ext_all.
      intros s. unfold summand, n'. simpl. rewrite snoc_eqb, kdelta_and, tn_terms_with_opens. ring.
    - simpl. apply sumf_ext. intros v Iv. apply mem_In in Iv. rewrite Iv. simpl; ring.
  Qed.
  (** opening an edge that was not open and closing it again *)
  Lemma open_close e d n n' r n2 r2 o :
    In e (keys (edges n)) -> ~ In e (opens n) ->
    open_edge e d n = (n', Ok r) -> close_edge e n' = (n2, Ok r2) -> value n2 o = value n o.
  Proof.
    intros I Ne E E2. apply has_In in I. unfold open_edge in E. minv E. rewrite I in E0. minvs.
    unfold close_edge in E2. minvs. simpl. rewrite filter_app. simpl. rewrite eqb_refl. simpl.
    rewrite app_nil_r, filter_negb_notin by auto. destruct n0; auto.
  Qed.
End Value.
