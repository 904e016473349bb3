(** * A gate from a qubit to itself may be put between two operations *)
From Coq Require Import Reals Lia Sorting.Sorted Sorting.Permutation.
From Verif Require Import Base Scalar NetSpec ModelArray ModelTN ModelVal ModelContract CircSpec ModelCircuit CircSem CircShape CircOp CircMain CircBuild CircUse NameOrder Props_Circuit.
Set Implicit Arguments.

Lemma ends_out_app a b : ends_out b = true -> ends_out (a ++ b) = true.
Proof.
  unfold ends_out. intros H. replace (last (a ++ b) LI) with (last b LI); auto. destruct b as [|x b _] using rev_ind; [discriminate|].
  rewrite app_assoc, !last_last. auto.
Qed.
Lemma alternating_insert h1 h2 : ends_out h1 = true -> alternating (h1 ++ h2) -> alternating (h1 ++ [LI; LO] ++ h2).
Proof.
  induction h1 as [|x r IH]; [discriminate|]. destruct r as [|y r].
  - intros E. destruct x; [discriminate|]. cbn. intros H. split; [discriminate|]. split; [discriminate|]. exact H.
  - intros E [D H]. split; [exact D|]. apply IH; auto.
Qed.
Lemma pairs_in {A} (R : A -> A -> Prop) l x y : ForallOrdPairs R l -> In x l -> In y l -> x = y \/ R x y \/ R y x.
Proof. intros F I J. exact (ForallOrdPairs_In F x y I J). Qed.
Lemma pairs_snoc {A} (R : A -> A -> Prop) l x : ForallOrdPairs R l -> (forall y, In y l -> R y x) -> ForallOrdPairs R (l ++ [x]).
Proof.
  induction 1 as [|a l F P IH]; intros H; simpl; [repeat constructor|]. constructor; [|apply IH; intros; apply H; simpl; auto].
  apply Forall_app. split; auto. constructor; [apply H; simpl; auto|constructor].
Qed.

Section Insert.
  Variable S : scalar.
  Notation op := (op S).
  Lemma history_app (l1 l2 : circ op) q : history (acts_of (l1 ++ l2)) q = history (acts_of l1) q ++ history (acts_of l2) q.
  Proof. unfold history, acts_of. rewrite !map_app, concat_app. auto. Qed.
  Lemma get_combine_none {B} q (a : list name) (b : list B) : ~ In q a -> get q (combine a b) = None.
  Proof.
    revert b. induction a as [|x a IH]; intros [|y b] N; simpl; auto. destruct (eqb_spec q x) as [->|]; [simpl in N; tauto|]. apply IH. simpl in N. tauto.
  Qed.
  Lemma history_off (l : circ op) q : (forall p, In p l -> ~ In q (g_qubits (snd p))) -> history (acts_of l) q = [].
  Proof.
    induction l as [|p l IH]; intros H; auto. change (p :: l) with ([p] ++ l). rewrite history_app, IH by (intros; apply H; simpl; auto). rewrite app_nil_r.
    unfold history, acts_of. simpl. rewrite app_nil_r. unfold word_at. simpl. rewrite get_combine_none; auto. apply H; simpl; auto.
  Qed.
  Lemma sorted_split (l : circ op) m : StronglySorted (@earlier S) l ->
    exists l1 l2, l = l1 ++ l2 /\ (forall p, In p l1 -> g_time (snd p) <= m)%Z /\ (forall p, In p l2 -> m < g_time (snd p))%Z.
  Proof.
    induction 1 as [|x l St IH F]; [exists [], []; repeat split; intros ? []|]. destruct IH as (l1 & l2 & -> & H1 & H2).
    destruct (Z_le_gt_dec (g_time (snd x)) m) as [Hx|Hx].
    - exists (x :: l1), l2. split; auto. split; auto. intros p [<-|I]; auto.
    - exists [], (x :: l1 ++ l2). split; auto. split; [intros ? []|]. intros p [<-|I]; [lia|]. rewrite Forall_forall in F. specialize (F p I). unfold earlier in F. lia.
  Qed.
  Lemma sorted_app_intro {X} (R : X -> X -> Prop) a b : StronglySorted R a -> StronglySorted R b -> (forall x y, In x a -> In y b -> R x y) -> StronglySorted R (a ++ b).
  Proof. apply CircShape.sorted_app. Qed.
  Lemma sorted_app_parts {X} (R : X -> X -> Prop) a b : StronglySorted R (a ++ b) -> StronglySorted R a /\ StronglySorted R b /\ (forall x y, In x a -> In y b -> R x y).
  Proof.
    induction a as [|x a IH]; simpl; intros H; [repeat split; auto; [constructor|intros ? ? []]|]. inversion H as [|? ? H' F]; subst. destruct (IH H') as (A & B & C).
    apply Forall_app in F as [F1 F2]. repeat split; auto; [constructor; auto|]. intros u v [<-|I] J; auto. rewrite Forall_forall in F2. auto.
  Qed.

  Lemma split_around (c l1 l2 : circ op) q k0 g0 : NoDup (keys c) -> once_at_a_time c -> Permutation c (l1 ++ (k0, g0) :: l2) -> In q (g_qubits g0) ->
    forall k g, In (k, g) (l1 ++ l2) -> g_time g = g_time g0 -> ~ In q (g_qubits g).
  Proof.
    intros N Once P Iq k g I T Ig. assert (I0 : In (k0, g0) c) by (eapply Permutation_in; [apply Permutation_sym; exact P|]; apply in_app_iff; simpl; auto).
    assert (Ic : In (k, g) c) by (eapply Permutation_in; [apply Permutation_sym; exact P|]; apply in_app_iff in I as [I|I]; apply in_app_iff; simpl; auto).
    destruct (pairs_in _ _ Once Ic I0) as [X|[X|X]].
    - injection X as -> ->. assert (Nl : NoDup (keys (l1 ++ (k0, g0) :: l2))) by (eapply Permutation_NoDup; [apply Permutation_map; exact P|exact N]).
      unfold keys in Nl. rewrite map_app in Nl. simpl in Nl. apply NoDup_remove_2 in Nl. apply Nl. rewrite <- map_app. apply in_map_iff. exists (k0, g0). auto.
    - apply (X T q); auto.
    - apply (X (eq_sym T) q); auto.
  Qed.
  Lemma insert_core (c : circ op) sh n m q o : op_wf (OCirc c) -> op_shape (OCirc c) = Ok sh -> used c q ->
    (forall k g, In (k, g) c -> In q (g_qubits g) -> g_time g <> m) ->
    (once_at_a_time c -> forall l1 l2, Permutation c (l1 ++ l2) -> StronglySorted (@earlier S) (l1 ++ l2) ->
      (forall p, In p l1 -> g_time (snd p) <= m)%Z -> (forall p, In p l2 -> m < g_time (snd p))%Z -> alternating (history (acts_of l1) q ++ history (acts_of l2) q) ->
      alternating (history (acts_of l1) q ++ [LI; LO] ++ history (acts_of l2) q)) ->
    op_wf o -> op_shape o = Ok [RW [LI; LO]] -> ~ In n (keys c) ->
    op_wf (OCirc (c ++ [(n, Gate m [q] o)])) /\ exists sh', op_shape (OCirc (c ++ [(n, Gate m [q] o)])) = Ok sh'.
  Proof.
    intros W E Uq Free Hw Wo Eso Nn. inversion W as [| | | | | |? N Wg G|]; subst.
    assert (W' : op_wf (OCirc (c ++ [(n, Gate m [q] o)]))).
    { constructor.
      - unfold keys. rewrite map_app. apply NoDup_snoc; auto.
      - intros k g I. apply in_app_iff in I as [I|[I|[]]]; [eauto|]. injection I as <- <-. exact Wo.
      - intros k g I. apply in_app_iff in I as [I|[I|[]]]; [eauto|]. injection I as <- <-. split; [repeat constructor; simpl; tauto|]. unfold op_len. cbn [g_op]. rewrite Eso. reflexivity. }
    split; auto. destruct (circ_facts G E) as (Q & AQ & _).
    assert (Nc : names_compare c).
    { intros x y Ux Uy D. apply all_qubits_register in AQ as [HQ Sq]. apply HQ in Ux, Uy. clear -Ux Uy D Sq. induction Sq as [|a l Sl IH F]; [contradiction|]. rewrite Forall_forall in F.
      destruct Ux as [->|Ux], Uy as [->|Uy]; [congruence|exists true; auto| |auto]. exists false. apply (@name_lt_flip y x true); auto. }
    destruct (in_order_perm c, in_order_sorted c) as [P St].
    destruct (C35_valid W Nc (conj P St)) as (b & Eb & Hb). rewrite E in Eb. injection Eb as <-. destruct (proj1 Hb eq_refl) as [Once Alt].
    destruct (sorted_split m St) as (l1 & l2 & El & H1 & H2). rewrite El in P, St, Alt. destruct (sorted_app_parts _ _ St) as (S1 & S2 & _).
    assert (Ord : time_ordered (c ++ [(n, Gate m [q] o)]) (l1 ++ [(n, Gate m [q] o)] ++ l2)).
    { split.
      - rewrite P, <- app_assoc. apply Permutation_app_head, Permutation_app_comm.
      - apply sorted_app_intro; auto.
        + simpl. constructor; auto. apply Forall_forall. intros p I. unfold earlier. cbn. specialize (H2 p I). lia.
        + intros x y I J. unfold earlier. specialize (H1 x I). destruct J as [<-|J]; [exact H1|]. specialize (H2 y J). lia. }
    assert (Nc' : names_compare (c ++ [(n, Gate m [q] o)])).
    { assert (U : forall x, used (c ++ [(n, Gate m [q] o)]) x -> used c x).
      { intros x (k & g & I & Ix). apply in_app_iff in I as [I|[I|[]]]; [exists k, g; auto|]. injection I as <- <-. destruct Ix as [<-|[]]. exact Uq. }
      intros x y Ux Uy. apply Nc; auto. }
    destruct (C35_valid W' Nc' Ord) as (b & Eb & Hb').
    assert (b = true) as ->.
    { apply Hb'. split.
      - apply pairs_snoc; [exact Once|]. intros [k g] I Et x Ix [<-|[]]. exact (Free k g I Ix Et).
      - intros x. rewrite !history_app. destruct (eqb_spec x q) as [->|D].
        + replace (history (acts_of [(n, Gate m [q] o)]) q) with [LI; LO].
          2: { unfold history, acts_of. cbn. unfold shape_or. rewrite Eso. unfold word_at. cbn. rewrite eqb_refl. reflexivity. }
          apply Hw; auto. rewrite <- history_app; apply Alt.
        + rewrite (@history_off [(n, Gate m [q] o)]); [cbn [app]; rewrite <- history_app; apply Alt|]. intros p [<-|[]] [X|[]]. congruence. }
    destruct (op_shape (OCirc (c ++ [(n, Gate m [q] o)]))) as [sh'|e]; [eauto|]. destruct e; discriminate.
  Qed.

  (** after an operation that leaves the qubit alive *)
  Lemma insert_after (c : circ op) sh n m q o k0 g0 : op_wf (OCirc c) -> op_shape (OCirc c) = Ok sh ->
    In (k0, g0) c -> In q (g_qubits g0) -> (g_time g0 < m)%Z -> ends_out (history (acts_of [(k0, g0)]) q) = true ->
    (forall k g, In (k, g) c -> In q (g_qubits g) -> (g_time g <= g_time g0 \/ m < g_time g)%Z) ->
    op_wf o -> op_shape o = Ok [RW [LI; LO]] -> ~ In n (keys c) ->
    op_wf (OCirc (c ++ [(n, Gate m [q] o)])) /\ exists sh', op_shape (OCirc (c ++ [(n, Gate m [q] o)])) = Ok sh'.
  Proof.
    intros W E I0 Iq Lt Eo Gap Wo Eso Nn. apply (@insert_core c sh n m q o W E); auto.
    - exists k0, g0. auto.
    - intros k g I Ig X. destruct (Gap k g I Ig); lia.
    - inversion W as [| | | | | |? N Wg G|]; subst. intros Once l1 l2 P St H1 H2 Alt. apply alternating_insert; auto.
      assert (J : In (k0, g0) l1).
      { assert (J : In (k0, g0) (l1 ++ l2)) by (eapply Permutation_in; eauto). apply in_app_iff in J as [J|J]; auto. apply H2 in J. cbn in J. lia. }
      apply sorted_app_parts in St as (S1 & _). apply in_split in J as (u & v & ->). change ((k0, g0) :: v) with ([(k0, g0)] ++ v). rewrite !history_app, (@history_off v), app_nil_r.
      + apply ends_out_app; auto.
      + intros [k g] I Ig. assert (Ic : In (k, g) c) by (eapply Permutation_in; [apply Permutation_sym; exact P|]; apply in_app_iff; left; apply in_app_iff; simpl; auto).
        rewrite <- app_assoc in P. apply (@split_around c _ _ q k0 g0 N Once P Iq k g); auto; [apply in_app_iff; right; apply in_app_iff; auto|].
        assert (T1 : (g_time g0 <= g_time g)%Z).
        { apply sorted_app_parts in S1 as (_ & S1 & _). inversion S1 as [|? ? _ F]; subst. rewrite Forall_forall in F. apply (F (k, g) I). }
        assert (T2 : (g_time g <= m)%Z) by (apply (H1 (k, g)); apply in_app_iff; simpl; auto). destruct (Gap k g Ic Ig); lia.
  Qed.
  (** before the first operation, if it needs the qubit alive *)
  Lemma insert_before (c : circ op) sh n m q o k0 g0 : op_wf (OCirc c) -> op_shape (OCirc c) = Ok sh ->
    In (k0, g0) c -> In q (g_qubits g0) -> (m < g_time g0)%Z -> starts_in (history (acts_of [(k0, g0)]) q) = true ->
    (forall k g, In (k, g) c -> In q (g_qubits g) -> (g_time g0 <= g_time g)%Z) ->
    op_wf o -> op_shape o = Ok [RW [LI; LO]] -> ~ In n (keys c) ->
    op_wf (OCirc (c ++ [(n, Gate m [q] o)])) /\ exists sh', op_shape (OCirc (c ++ [(n, Gate m [q] o)])) = Ok sh'.
  Proof.
    intros W E I0 Iq Lt Eo Gap Wo Eso Nn. apply (@insert_core c sh n m q o W E); auto.
    - exists k0, g0. auto.
    - intros k g I Ig X. pose proof (Gap k g I Ig). lia.
    - inversion W as [| | | | | |? N Wg G|]; subst. intros Once l1 l2 P St H1 H2 Alt.
      rewrite (@history_off l1) in *.
      2, 3: intros [k g] I Ig; assert (Ic : In (k, g) c) by (eapply Permutation_in; [apply Permutation_sym; exact P|]; apply in_app_iff; auto); pose proof (Gap k g Ic Ig); specialize (H1 _ I); cbn in H1; lia.
      assert (J : In (k0, g0) l2).
      { assert (J : In (k0, g0) (l1 ++ l2)) by (eapply Permutation_in; eauto). apply in_app_iff in J as [J|J]; auto. apply H1 in J. cbn in J. lia. }
      apply sorted_app_parts in St as (_ & S2 & _). apply in_split in J as (u & v & ->).
      assert (Hh : history (acts_of (u ++ (k0, g0) :: v)) q = history (acts_of [(k0, g0)]) q ++ history (acts_of v) q).
      { change ((k0, g0) :: v) with ([(k0, g0)] ++ v). rewrite !history_app, (@history_off u); auto.
        intros [k g] I Ig. assert (Ic : In (k, g) c) by (eapply Permutation_in; [apply Permutation_sym; exact P|]; apply in_app_iff; right; apply in_app_iff; simpl; auto).
        rewrite app_assoc in P. apply (@split_around c _ _ q k0 g0 N Once P Iq k g); auto; [apply in_app_iff; left; apply in_app_iff; auto|].
        apply sorted_app_parts in S2 as (_ & _ & F). specialize (F (k, g) (k0, g0) I (or_introl eq_refl)). unfold earlier in F. cbn in F. pose proof (Gap k g Ic Ig). lia. }
      rewrite Hh in *. destruct (history (acts_of [(k0, g0)]) q) as [|[|] w]; try discriminate. simpl in *. split; [discriminate|]. split; [discriminate|]. exact Alt.
  Qed.
End Insert.
