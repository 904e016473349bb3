(** Time order and shape of circuits: the model computes what the specification says. *)
From Coq Require Import Sorting.Permutation Sorting.Sorted.
From Verif Require Import Base Scalar NetSpec Sums NetAlg ModelArray ModelTN ModelVal ModelContract ContractExec NameOrder CircSpec
  CircSum CircOrder ModelCircuit CircSem.
Set Implicit Arguments.

(** ** words *)
Lemma word_ind2 (P : word -> Prop) : P [] -> (forall a, P [a]) -> (forall a b w, P w -> P (b :: w) -> P (a :: b :: w)) -> forall w, P w.
Proof.
  intros H0 H1 H2. enough (H : forall w, P w /\ forall a, P (a :: w)) by (intros w; apply H).
  induction w as [|b w [IH1 IH2]]; split; auto.
Qed.

Lemma io_star_alt w : io_star w = true <-> (alternating w /\ starts_in w = true) \/ w = [].
Proof.
  enough (H : (io_star w = true <-> (alternating w /\ starts_in w = true) \/ w = []) /\
              (forall a, io_star (a :: w) = true <-> (alternating (a :: w) /\ starts_in (a :: w) = true))) by (apply H).
  induction w as [|b w [IH1 IH2]].
  - split; [simpl; intuition|]. intros []; simpl; intuition discriminate.
  - split; [rewrite IH2; intuition discriminate|]. intros [].
    + destruct b.
      * simpl. intuition discriminate.
      * cbn [io_star]. rewrite IH1. cbn [starts_in]. split.
        -- intros [[A E]| ->]; [|simpl; repeat split; congruence]. split; auto. split; [congruence|].
           destruct w as [|[]]; simpl in *; try discriminate; auto. split; [congruence|auto].
        -- intros [[_ A] _]. destruct w as [|c w]; auto. left. destruct A as [N A]. split; auto. destruct c; simpl; congruence.
    + simpl. destruct b; intuition discriminate.
Qed.
Lemma pattern_alt w : pattern w = true <-> alternating w.
Proof.
  unfold pattern. destruct w as [|[] w].
  - simpl; intuition.
  - rewrite io_star_alt. simpl starts_in. split; [intros [[]|]; auto; discriminate|auto].
  - rewrite io_star_alt. destruct w as [|c w]; [simpl; intuition|].
    change (alternating (LO :: c :: w)) with (LO <> c /\ alternating (c :: w)).
    split; [intros [[A E]|]; [|discriminate]; split; auto; destruct c; simpl in E; congruence|].
    intros [N A]. left. split; auto. destruct c; simpl; congruence.
Qed.

Lemma truncate_step a b w : w <> [] -> truncate (a :: b :: w) = firstn (2 - length w mod 2) (a :: b :: w).
Proof.
  intros _. unfold truncate. do 2 f_equal. change (length (a :: b :: w)) with (S (S (length w))).
  replace (S (S (length w))) with (length w + 1 * 2) by lia. rewrite Nat.mod_add by lia. auto.
Qed.
Lemma truncate_shape w : alternating w ->
  starts_in (truncate w) = starts_in w /\ ends_out (truncate w) = ends_out w /\ is_nil (truncate w) = is_nil w /\
  alternating (truncate w) /\ length (truncate w) <= 2.
Proof.
  intros A. enough (H : truncate w = match w with
                                    | [] => []
                                    | a :: r => if letter_eqb a (last w LI) then [a] else [a; last w LI]
                                    end).
  { rewrite H. destruct w as [|a r]; [repeat split; auto; simpl; lia|].
    unfold ends_out. destruct (last (a :: r) LI) eqn:E, a; simpl; repeat split; auto; congruence. }
  induction w as [| |a b w IH _] using word_ind2; auto.
  { destruct a; auto. }
  destruct w as [|c w].
  { destruct A as [N _]. destruct a, b; try congruence; reflexivity. }
  destruct A as [N1 [N2 A]]. assert (c = a) by (destruct a, b, c; congruence). subst c.
  assert (A' : alternating (a :: w)) by auto. apply IH in A'. clear IH.
  rewrite truncate_step by discriminate. unfold truncate in A'.
  assert (E : last (a :: b :: a :: w) LI = last (a :: w) LI) by reflexivity. rewrite E. clear E.
  set (m := length (a :: w) mod 2) in *. assert (m < 2) by (apply Nat.mod_upper_bound; lia).
  destruct m as [|[|m']] eqn:M; [| |lia]; simpl firstn in *.
  - (* even *) destruct w as [|d w]; [discriminate|]. simpl firstn in A'.
    assert (d = b) by (destruct A as [N3 _]; destruct a, b, d; congruence). subst d.
    destruct (letter_eqb a (last (a :: b :: w) LI)); [discriminate|]. auto.
  - destruct (letter_eqb a (last (a :: w) LI)); auto.
Qed.

(** ** order of time *)
Lemma zins_In x y l : In y (zins x l) <-> y = x \/ In y l.
Proof.
  induction l as [|z r IH]; simpl; [intuition|].
  destruct (Z.ltb_spec x z); [simpl; intuition|]. destruct (Z.eqb_spec x z); [subst; simpl; intuition|].
  simpl. rewrite IH. intuition.
Qed.
Lemma zins_sorted x l : StronglySorted Z.lt l -> StronglySorted Z.lt (zins x l).
Proof.
  induction l as [|z r IH]; simpl; intros S; [repeat constructor|].
  inversion S as [|? ? S' F]; subst. rewrite Forall_forall in F.
  destruct (Z.ltb_spec x z).
  - constructor; auto. constructor; auto. apply Forall_forall. intros y Iy. specialize (F y Iy). lia.
  - destruct (Z.eqb_spec x z); auto. constructor; auto. apply Forall_forall. intros y Iy.
    apply zins_In in Iy as [->|Iy]; [lia|auto].
Qed.
Section Time.
  Context {A : Type}.
  Implicit Types c : circ A.
  Lemma times_In c t : In t (times c) <-> exists p, In p c /\ g_time (snd p) = t.
  Proof.
    unfold times. induction c as [|p r IH]; simpl; [firstorder|]. rewrite zins_In, IH. split.
    - intros [->|(q & Iq & E)]; eauto.
    - intros (q & [->|Iq] & E); eauto.
  Qed.
  Lemma times_sorted c : StronglySorted Z.lt (times c).
  Proof. unfold times. induction c as [|p r IH]; simpl; [constructor|]. apply zins_sorted; auto. Qed.

  Lemma filter_split {X} (p : X -> bool) l : Permutation l (filter p l ++ filter (fun x => negb (p x)) l).
  Proof.
    induction l as [|x r IH]; simpl; auto. destruct (p x); simpl; auto.
    eapply perm_trans; [apply perm_skip; exact IH|]. apply Permutation_middle.
  Qed.
  Lemma filter_filter {X} (p q : X -> bool) l : filter p (filter q l) = filter (fun x => p x && q x) l.
  Proof.
    induction l as [|x r IH]; simpl; auto. destruct (q x); simpl; [|rewrite andb_false_r; auto].
    rewrite andb_true_r. destruct (p x); rewrite IH; auto.
  Qed.
  Lemma group_perm c ts : NoDup ts -> (forall p, In p c -> In (g_time (snd p)) ts) ->
    Permutation c (concat (map (at_time c) ts)).
  Proof.
    revert c; induction ts as [|t ts IH]; intros c N H; simpl.
    - destruct c as [|p r]; auto. destruct (H p (or_introl eq_refl)).
    - inversion N; subst. eapply perm_trans; [apply (@filter_split _ (fun p => Z.eqb (g_time (snd p)) t))|].
      apply Permutation_app; [reflexivity|].
      set (c' := filter (fun x => negb (g_time (snd x) =? t)%Z) c).
      eapply perm_trans; [apply (IH c'); auto|].
      + intros p Ip. apply filter_In in Ip as [Ip E]. destruct (H p Ip) as [E2|]; auto.
        rewrite E2, Z.eqb_refl in E. discriminate.
      + replace (map (at_time c') ts) with (map (at_time c) ts); auto. apply map_ext_in. intros u Iu.
        unfold at_time, c'. rewrite filter_filter. apply filter_ext_in. intros p Ip.
        destruct (Z.eqb_spec (g_time (snd p)) u); simpl; auto. destruct (Z.eqb_spec (g_time (snd p)) t); auto. subst. congruence.
  Qed.
  Lemma sorted_lt_NoDup l : StronglySorted Z.lt l -> NoDup l.
  Proof.
    induction l as [|x r IH]; intros S; constructor; inversion S as [|? ? S' F]; subst; auto.
    intros I. rewrite Forall_forall in F. specialize (F x I). lia.
  Qed.
  Lemma in_order_eq c : in_order c = concat (map (at_time c) (times c)).
  Proof. unfold in_order, by_time. rewrite map_map. auto. Qed.
  Lemma in_order_perm c : Permutation c (in_order c).
  Proof.
    rewrite in_order_eq. apply group_perm; [apply sorted_lt_NoDup, times_sorted|].
    intros p Ip. apply times_In. eauto.
  Qed.

  Definition gate_le (p q : name * gate A) : Prop := (g_time (snd p) <= g_time (snd q))%Z.
  Lemma sorted_app {X} (R : X -> X -> Prop) l m :
    StronglySorted R l -> StronglySorted R m -> (forall a b, In a l -> In b m -> R a b) -> StronglySorted R (l ++ m).
  Proof.
    induction l as [|x r IH]; intros S1 S2 H; simpl; auto. inversion S1 as [|? ? S' F]; subst.
    constructor.
    - apply IH; auto. intros; apply H; simpl; auto.
    - apply Forall_app; split; auto. apply Forall_forall. intros b Ib. apply H; simpl; auto.
  Qed.
  Lemma at_time_In c t p : In p (at_time c t) <-> In p c /\ g_time (snd p) = t.
  Proof. unfold at_time. rewrite filter_In, Z.eqb_eq. tauto. Qed.
  Lemma sorted_const (l : circ A) t : (forall p, In p l -> g_time (snd p) = t) -> StronglySorted gate_le l.
  Proof.
    induction l as [|p r IH]; intros H; constructor; [apply IH; intros; apply H; simpl; auto|].
    apply Forall_forall. intros q Iq. unfold gate_le. rewrite (H p), (H q); simpl; auto. lia.
  Qed.
  Lemma concat_sorted (f : Z -> circ A) ts : StronglySorted Z.lt ts ->
    (forall t p, In p (f t) -> g_time (snd p) = t) -> StronglySorted gate_le (concat (map f ts)).
  Proof.
    intros S H. induction S as [|t ts S IH F]; simpl; [constructor|].
    apply sorted_app; auto; [eapply sorted_const; intros p Ip; eapply H; eauto|].
    intros a b Ia Ib. unfold gate_le. rewrite (H t a) by auto. apply in_concat in Ib as (l & Il & Ib).
    apply in_map_iff in Il as (u & <- & Iu). rewrite (H u b) by auto. rewrite Forall_forall in F. specialize (F u Iu). lia.
  Qed.
  Lemma in_order_sorted c : StronglySorted gate_le (in_order c).
  Proof.
    rewrite in_order_eq. apply concat_sorted; [apply times_sorted|]. intros t p Ip. apply at_time_In in Ip; tauto.
  Qed.
  (** the order in which convert_pure visits the gates, backwards *)
  Definition rev_order c : circ A := rev (concat (map snd (rev (by_time c)))).
  Lemma rev_concat {X} (ll : list (list X)) : rev (concat ll) = concat (map (@rev X) (rev ll)).
  Proof.
    induction ll as [|l r IH]; simpl; auto. rewrite rev_app_distr, IH, map_app, concat_app. simpl. rewrite app_nil_r; auto.
  Qed.
  Lemma rev_order_eq c : rev_order c = concat (map (fun t => rev (at_time c t)) (times c)).
  Proof.
    unfold rev_order, by_time. rewrite rev_concat, <- map_rev, rev_involutive, !map_map. auto.
  Qed.
  Lemma rev_order_perm c : Permutation c (rev_order c).
  Proof.
    eapply perm_trans; [apply in_order_perm|]. rewrite in_order_eq, rev_order_eq.
    induction (times c) as [|t ts IH]; simpl; auto. apply Permutation_app; auto. apply Permutation_rev.
  Qed.
  Lemma rev_order_sorted c : StronglySorted gate_le (rev_order c).
  Proof.
    rewrite rev_order_eq. apply concat_sorted; [apply times_sorted|]. intros t p Ip. apply in_rev, at_time_In in Ip; tauto.
  Qed.

End Time.
Section TimeMap.
  Context {A B : Type} (f : A -> B).
  Implicit Types c : circ A.
  Lemma at_time_map c t : at_time (map_circ f c) t = map_circ f (at_time c t).
  Proof.
    unfold at_time, map_circ. induction c as [|p r IH]; simpl; auto. destruct (g_time (snd p) =? t)%Z; simpl; congruence.
  Qed.
  Lemma times_map c : times (map_circ f c) = times c.
  Proof. unfold times, map_circ. rewrite map_map. auto. Qed.
  Lemma by_time_map c : by_time (map_circ f c) = map (fun p => (fst p, map_circ f (snd p))) (by_time c).
  Proof. unfold by_time. rewrite times_map, map_map. apply map_ext. intros t. simpl. rewrite at_time_map; auto. Qed.
  Lemma in_order_map c : in_order (map_circ f c) = map_circ f (in_order c).
  Proof.
    rewrite !in_order_eq, times_map. unfold map_circ at 2. rewrite concat_map, map_map. f_equal. apply map_ext.
    intros t. apply at_time_map.
  Qed.
  Lemma qubits_map c : qubits_of (map_circ f c) = qubits_of c.
  Proof. unfold qubits_of, map_circ. rewrite map_map. auto. Qed.
  Lemma all_qubits_map c : all_qubits (map_circ f c) = all_qubits c.
  Proof. unfold all_qubits. rewrite qubits_map; auto. Qed.
End TimeMap.

(** ** qubits *)
Lemma all_qubits_spec {A} (c : circ A) qs : all_qubits c = Ok qs ->
  NoDup qs /\ StronglySorted (below name_lt) qs /\ (forall q, In q qs <-> In q (qubits_of c)).
Proof.
  intros E. unfold all_qubits in E.
  assert (P : Permutation (dedup (qubits_of c)) qs) by (apply sort_by_perm in E; rewrite app_nil_r in E; auto).
  assert (N := dedup_NoDup (qubits_of c)). repeat split.
  - eapply Permutation_NoDup; eauto.
  - eapply (@sort_by_sorted name_lt (fun _ => True)) with (l := dedup (qubits_of c)) (acc := []);
      eauto using Forall_T, name_lt_irrefl, name_lt_trans, name_lt_flip; try constructor. rewrite app_nil_r; auto.
  - intros I. apply dedup_In. eapply Permutation_in; [apply Permutation_sym; eauto|auto].
  - intros I. eapply Permutation_in; [eauto|]. apply dedup_In; auto.
Qed.
Lemma qubits_In {A} (c : circ A) q : In q (qubits_of c) <-> exists p, In p c /\ In q (g_qubits (snd p)).
Proof.
  unfold qubits_of. rewrite in_concat. split.
  - intros (l & Il & Iq). apply in_map_iff in Il as (p & <- & Ip). eauto.
  - intros (p & Ip & Iq). exists (g_qubits (snd p)). split; auto. apply in_map_iff; eauto.
Qed.

(** ** the shape of a circuit *)
Section Shape.
  Variable S : scalar.
  Notation ampl := (ampl S).
  Notation sgate := (gate (list role * ampl)).
  Definition tact (g : sgate) : timed S := (g_time g, gact g).
  Definition gate_ok (g : sgate) : Prop := NoDup (g_qubits g) /\ length (g_qubits g) = length (fst (g_op g)).
  Definition tacts (l : circ (list role * ampl)) : list (timed S) := map (fun p => tact (snd p)) l.
  Definition shapes (l : circ (list role * ampl)) : circ (res (list role)) := map_circ (fun x => Ok (fst x)) l.

  Lemma word_at_nth (qs : list name) (ws : list word) a i q w :
    NoDup qs -> nth_error qs i = Some q -> nth_error ws i = Some w -> word_at (Act (S := S) qs ws a) q = w.
  Proof.
    unfold word_at; simpl. revert qs ws. induction i as [|i IH]; intros [|x qs] [|y ws] N E1 E2; simpl in *; try discriminate.
    - inversion E1; inversion E2; subst. rewrite eqb_refl; auto.
    - inversion N; subst. destruct (eqb_spec q x) as [->|]; [|apply IH; auto].
      exfalso. apply H1. eapply nth_error_In; eauto.
  Qed.
  Lemma scan_get_set q r x st : scan_get q (set r x st) = if eqb q r then x else scan_get q st.
  Proof.
    unfold scan_get. destruct (eqb_spec q r) as [->|N]; [rewrite get_set_eq; auto|rewrite get_set_neq; auto].
  Qed.
  Lemma scan_gate_spec t s : forall qs i st, NoDup qs -> i + length qs <= length s ->
    match scan_gate t (Ok s) i qs st with
    | Ok st' =>
        (forall q, In q qs -> late (snd (scan_get q st)) t = false) /\
        (forall q, ~ In q qs -> scan_get q st' = scan_get q st) /\
        (forall j q, nth_error qs j = Some q ->
           exists r, nth_error s (i + j) = Some r /\ scan_get q st' = (fst (scan_get q st) ++ role_word r, Some t)) /\
        (forall q, In q (keys st') <-> In q (keys st) \/ In q qs) /\ (NoDup (keys st) -> NoDup (keys st'))
    | Err ValueError => exists q, In q qs /\ late (snd (scan_get q st)) t = true
    | Err _ => False
    end.
  Proof.
    induction qs as [|q qs IH]; intros i st N L; simpl.
    - repeat split; auto; try tauto. intros [|j] q E; discriminate.
    - inversion N as [|? ? N1 N2]; subst. simpl in L. destruct (late (snd (scan_get q st)) t) eqn:La; [eauto|].
      destruct (nth_error s i) as [r|] eqn:Er; [|apply nth_error_None in Er; lia].
      specialize (IH (Datatypes.S i) (set q (fst (scan_get q st) ++ role_word r, Some t) st) N2 ltac:(lia)).
      destruct (scan_gate _ _ _ _ _) as [st'|[]]; auto.
      + destruct IH as (H1 & H2 & H3 & H4 & H5). repeat split.
        * intros x [<-|Ix]; auto. specialize (H1 x Ix). rewrite scan_get_set in H1.
          destruct (eqb_spec x q) as [E0|]; [subst; tauto|auto].
        * intros x Nx. rewrite H2 by tauto. rewrite scan_get_set. destruct (eqb_spec x q) as [E0|]; [subst; tauto|auto].
        * intros [|j] x E; simpl in E.
          -- inversion E; subst. exists r. rewrite Nat.add_0_r. split; auto. rewrite H2 by auto.
             rewrite scan_get_set, eqb_refl; auto.
          -- destruct (H3 j x E) as (r' & E1 & E2). exists r'. split; [rewrite <- E1; f_equal; lia|].
             rewrite E2, scan_get_set. destruct (eqb_spec x q) as [->|]; auto. exfalso. apply N1. eapply nth_error_In; eauto.
        * rewrite H4, keys_set_In. intuition.
        * rewrite H4, keys_set_In. intuition.
        * intros Ns. apply H5, keys_set_NoDup; auto.
      + destruct IH as (x & Ix & Lx). exists x; split; auto. rewrite scan_get_set in Lx.
        destruct (eqb_spec x q) as [E0|]; [subst; tauto|auto].
  Qed.

  (** what the loop knows after the operations [l] *)
  Record scanned (l : list (timed S)) (st : scan_t) : Prop := {
    sc_hist : forall q, fst (scan_get q st) = history (map snd l) q;
    sc_some : forall q t, snd (scan_get q st) = Some t -> exists x, In x l /\ fst x = t /\ In q (on (snd x));
    sc_use : forall x q, In x l -> In q (on (snd x)) -> exists t, snd (scan_get q st) = Some t /\ (fst x <= t)%Z;
    sc_keys : forall q, In q (keys st) <-> exists x, In x l /\ In q (on (snd x));
    sc_nodup : NoDup (keys st)
  }.
  Lemma FOP_snoc {X} (R : X -> X -> Prop) l a : ForallOrdPairs R (l ++ [a]) <-> ForallOrdPairs R l /\ (forall x, In x l -> R x a).
  Proof.
    induction l as [|b l IH]; simpl.
    - split; [intros _; split; [constructor|tauto]|]. intros _. constructor; constructor.
    - split.
      + intros F. inversion F as [|? ? F1 F2]; subst. apply IH in F2 as [F2 F3]. split.
        * constructor; auto. apply Forall_app in F1; tauto.
        * intros x [<-|Ix]; auto. apply Forall_app in F1 as [_ F1]. inversion F1; auto.
      + intros [F H]. inversion F as [|? ? F1 F2]; subst. constructor.
        * apply Forall_app; split; auto.
        * apply IH; split; auto.
  Qed.
  Lemma scan_step l st (p : name * sgate) :
    scanned l st -> gate_ok (snd p) -> (forall x, In x l -> (fst x <= g_time (snd p))%Z) ->
    match scan_gate (g_time (snd p)) (Ok (fst (g_op (snd p)))) 0 (g_qubits (snd p)) st with
    | Ok st' => scanned (l ++ [tact (snd p)]) st' /\ (forall x, In x l -> same_time_apart x (tact (snd p)))
    | Err ValueError => ~ (forall x, In x l -> same_time_apart x (tact (snd p)))
    | Err _ => False
    end.
  Proof.
    intros [H1 H2 H3 H4 H5] [N L] Le. pose proof (@scan_gate_spec (g_time (snd p)) (fst (g_op (snd p))) (g_qubits (snd p)) 0 st N) as G.
    rewrite L in G. specialize (G (le_n _)). destruct (scan_gate _ _ _ _ _) as [st'|[]]; auto.
    - destruct G as (G1 & G2 & G3 & G4 & G5). set (g := snd p) in *.
      assert (W : forall q, fst (scan_get q st') = fst (scan_get q st) ++ word_at (gact g) q /\
                            snd (scan_get q st') = if mem q (g_qubits g) then Some (g_time g) else snd (scan_get q st)).
      { intros q. destruct (mem q (g_qubits g)) eqn:M.
        - apply mem_In in M. destruct (In_nth_error _ _ M) as [j Ej]. destruct (G3 j q Ej) as (r & Er & Es).
          rewrite Es. simpl. split; auto. f_equal. symmetry. unfold gact. eapply word_at_nth; eauto.
          simpl in Er. rewrite nth_error_map, Er; auto.
        - apply mem_false in M. rewrite (G2 q M). split; auto. unfold gact. rewrite word_at_off by auto. rewrite app_nil_r; auto. }
      split; [constructor|].
      + intros q. destruct (W q) as [-> _]. rewrite map_app, history_app, H1. f_equal. unfold history; simpl. rewrite app_nil_r; auto.
      + intros q t E. destruct (W q) as [_ Wq]. rewrite Wq in E. destruct (mem q (g_qubits g)) eqn:M.
        * inversion E; subst. exists (tact g). split; [apply in_app_iff; simpl; auto|]. split; auto. simpl. apply mem_In; auto.
        * destruct (H2 q t E) as (x & Ix & Ex & Ox). exists x. split; auto. apply in_app_iff; auto.
      + intros x q Ix Iq. destruct (W q) as [_ Wq]. rewrite Wq. apply in_app_iff in Ix as [Ix|[<-|[]]].
        * destruct (mem q (g_qubits g)); [|eapply H3; eauto]. eexists; split; eauto.
        * simpl in Iq. rewrite (proj2 (mem_In q _) Iq). eexists; split; eauto. simpl; lia.
      + intros q. rewrite G4, H4. split.
        * intros [(x & Ix & Ox)|Iq]; [exists x|exists (tact g)]; split; auto; apply in_app_iff; simpl; auto.
        * intros (x & Ix & Ox). apply in_app_iff in Ix as [Ix|[<-|[]]]; eauto.
      + auto.
      + intros x Ix Et q Ox Og. simpl in Et, Og. specialize (G1 q Og).
        destruct (H3 x q Ix Ox) as (t & Es & Lt). rewrite Es in G1. unfold late in G1. apply Z.leb_gt in G1. lia.
    - destruct G as (q & Iq & Lq). intros F. destruct (snd (scan_get q st)) as [t|] eqn:Es; [|discriminate].
      destruct (H2 q t Es) as (x & Ix & Ex & Ox). unfold late in Lq. apply Z.leb_le in Lq.
      apply (F x Ix) with (q := q); auto. simpl. specialize (Le x Ix). lia.
  Qed.

  Lemma scan_spec (c : circ (list role * ampl)) : forall l st, Forall (fun p => gate_ok (snd p)) c -> scanned l st -> ForallOrdPairs (@same_time_apart S) l ->
    StronglySorted gate_le c -> (forall x p, In x l -> In p c -> (fst x <= g_time (snd p))%Z) ->
    match scan (shapes c) st with
    | Ok st' => scanned (l ++ tacts c) st' /\ ForallOrdPairs (@same_time_apart S) (l ++ tacts c)
    | Err ValueError => ~ ForallOrdPairs (@same_time_apart S) (l ++ tacts c)
    | Err _ => False
    end.
  Proof.
    induction c as [|[k g] c IH]; intros l st G Sc F So Le.
    - simpl. rewrite app_nil_r. auto.
    - inversion G as [|? ? Gp Gc]; subst. inversion So as [|? ? So' Fo]; subst.
      change (scan (shapes ((k, g) :: c)) st) with
        (do st <- scan_gate (g_time g) (Ok (fst (g_op g))) 0 (g_qubits g) st; scan (shapes c) st).
      pose proof (@scan_step l st (k, g) Sc Gp (fun x Ix => Le x (k, g) Ix (or_introl eq_refl))) as St.
      change (tacts ((k, g) :: c)) with ([tact g] ++ tacts c). rewrite app_assoc.
      cbn [snd] in St. destruct (scan_gate _ _ _ _ _) as [st1|[]]; try (exact St).
      + cbn [bind]. destruct St as [Sc1 A]. apply IH; auto.
        * apply FOP_snoc; auto.
        * intros x p Ix Ip. apply in_app_iff in Ix as [Ix|[<-|[]]]; [apply (Le x p); simpl; auto|].
          rewrite Forall_forall in Fo. apply (Fo p Ip).
      + cbn [bind]. intros F'. apply St. intros x Ix. clear - F' Ix. rewrite <- app_assoc in F'.
        induction l as [|y l IH]; [destruct Ix|]. simpl in F'. inversion F' as [|? ? F1 F2]; subst.
        destruct Ix as [->|Ix]; [|apply IH; auto]. rewrite Forall_forall in F1. apply F1.
        apply in_app_iff; right; simpl; auto.
  Qed.

  (** the sort may fail, with a TypeError only *)
  Lemma name_lt_err x : forall y e, name_lt x y = Err e -> e = TypeError.
  Proof.
    induction x as [| | |l IH] using name_ind'; intros [] e E; simpl in E; try congruence.
    rewrite name_lt_NT in E || idtac. revert l0 E. induction l as [|a l IHl]; intros [|b m] E; simpl in E; try congruence.
    inversion IH as [|? ? Ha Hl]; subst. destruct (eqb a b) eqn:Q; eauto.
  Qed.
  Lemma sort_ins_err x l e : sort_ins name_lt x l = Err e -> e = TypeError.
  Proof.
    induction l as [|y r IH]; simpl; [discriminate|]. destruct (name_lt x y) as [[]|e'] eqn:E; simpl; try discriminate.
    - destruct (sort_ins name_lt x r); simpl; [discriminate|]. intros Q; inversion Q; subst; auto.
    - intros Q; inversion Q; subst. eapply name_lt_err; eauto.
  Qed.
  Lemma sort_by_err l e : forall acc, sort_by name_lt l acc = Err e -> e = TypeError.
  Proof.
    induction l as [|x r IH]; intros acc; simpl; [discriminate|].
    destruct (sort_ins name_lt x acc) as [a|e'] eqn:E; simpl; eauto.
    intros Q; inversion Q; subst. eapply sort_ins_err; eauto.
  Qed.

  Definition circ_ok (c : circ (list role * ampl)) : Prop := Forall (fun p => gate_ok (snd p)) c.
  Definition apart_ok (c : circ (list role * ampl)) : Prop := ForallOrdPairs (@same_time_apart S) (tacts c).
  Definition alt_ok (c : circ (list role * ampl)) : Prop := forall q, alternating (history (circ_acts c) q).

  Lemma apart_perm c c' : Permutation c c' -> apart_ok c -> apart_ok c'.
  Proof.
    intros P. apply FOP_perm; [apply same_time_apart_sym|]. apply Permutation_map; auto.
  Qed.
  Theorem circ_shape_spec c : circ_ok c ->
    match circ_shape (shapes c) with
    | Ok sh => apart_ok c /\ alt_ok c /\ exists qs, all_qubits c = Ok qs /\
                 sh = map (fun q => RW (truncate (history (circ_acts c) q))) qs
    | Err ValueError => ~ (apart_ok c /\ alt_ok c)
    | Err TypeError => all_qubits c = Err TypeError
    | Err _ => False
    end.
  Proof.
    intros G. assert (P := in_order_perm c).
    assert (G' : circ_ok (in_order c)) by (eapply Permutation_Forall; eauto).
    unfold circ_shape, shapes. rewrite in_order_map. fold (shapes (in_order c)).
    pose proof (@scan_spec (in_order c) [] []) as Sp. cbn [app] in Sp.
    assert (Sc0 : scanned [] []).
    { constructor; [auto|intros; discriminate|intros ? ? []| |constructor]. intros q; simpl; split; [tauto|]. intros (x & [] & _). }
    specialize (Sp G' Sc0 (FOP_nil _) (in_order_sorted c) ltac:(intros x p [])).
    assert (Pc : Permutation (in_order c) c) by (apply Permutation_sym; auto).
    assert (Ha : circ_acts c = map snd (tacts (in_order c))) by (unfold circ_acts, tacts; rewrite map_map; auto).
    destruct (scan _ _) as [st|[]]; try tauto; cbn [bind].
    - destruct Sp as [[S1 S2 S3 S4 S5] F].
      assert (A : apart_ok c) by (eapply apart_perm; [exact Pc|exact F]).
      destruct (forallb _ st) eqn:Fp.
      + assert (Al : alt_ok c).
        { intros q. rewrite Ha, <- S1. rewrite forallb_forall in Fp. apply pattern_alt. unfold scan_get.
          destruct (get q st) as [x|] eqn:Gq; auto. apply (Fp (q, x)). apply get_In; auto. }
        fold (shapes c). unfold shapes. rewrite all_qubits_map. destruct (all_qubits c) as [qs|e] eqn:Q; cbn [bind].
        * split; auto. split; auto. exists qs. split; auto. apply map_ext. intros q. rewrite S1, Ha. auto.
        * assert (e = TypeError) by (unfold all_qubits in Q; eapply sort_by_err; eauto). subst; auto.
      + intros [_ Al]. apply not_true_iff_false in Fp. apply Fp. apply forallb_forall. intros [q x] Iq. simpl.
        apply pattern_alt. specialize (Al q). rewrite Ha, <- S1 in Al.
        unfold scan_get in Al. rewrite (In_get _ _ _ S5 Iq) in Al. auto.
    - intros [A _]. apply Sp. eapply (@apart_perm c); auto.
  Qed.
End Shape.
