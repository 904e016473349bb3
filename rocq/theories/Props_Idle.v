(** * C64: add_idle_noise fills every gap of every qubit once, with the right duration

    [add_idle_noise] is in ModelIdle.v; [life], [born], [gap], [tail_gap] and [filler] in IdleSpec.v; [qec_op] and [coherence] in Props_Qec.v.  [in_order] lists the operations
    by time (C34_time_order). *)
From Coq Require Import Reals Lra Lia Sorting.Sorted.
From Verif Require Import Base Scalar NetSpec ModelArray ModelTN ModelVal ModelContract CircSpec ModelCircuit CircSem CircShape CircOp CircMain CircBuild Complex ModelGates GateSpec GateProofs NoiseSpec
  ChanTrace ChanCirc Props_Gates Props_Noise ModelQec Props_Qec IdleValid ModelIdle IdleSpec IdleProofs.
Set Implicit Arguments.

(** an operation whose name is that of an idle gate is where the name says; so it is when names are left to append *)
Definition names_fit (c : circ (op CK)) : Prop := forall t q g, In (NT [NI t; NT [q]], g) c -> g_time g = t /\ g_qubits g = [q].
Definition even_times (c : circ (op CK)) : Prop := forall k g, In (k, g) c -> Z.even (g_time g) = true.
Definition even_opt (t : option Z) : Prop := forall z, t = Some z -> Z.even z = true.
Definition not_before (start : option Z) (c : circ (op CK)) : Prop := forall s, start = Some s -> forall k g, In (k, g) c -> (s <= g_time g)%Z.
(** what a qubit goes through from the start on *)
Definition alive (kind : op CK -> kinds) (start : option Z) (c : circ (op CK)) (q : name) : list (Z * kinds) := born start ++ life kind q (in_order c).
(** a stretch of time to fill on a used qubit: a gap, or the wait for the end *)
Definition slot (kind : op CK -> kinds) (start stop : option Z) (c : circ (op CK)) (q : name) (t0 t : Z) (m s : option Z) : Prop :=
  used c q /\ (gap (alive kind start c q) t0 t m s \/ (stop = Some t /\ tail_gap (alive kind start c q) t0 t /\ m = None /\ s = None)).

Section C64.
  Variable kind : op CK -> kinds.
  Variable unit : R.
  Variable p : qparams.
  Variables start stop : option Z.

  Lemma life_in q c t k : In (t, k) (life kind q (in_order c)) <-> exists n g, In (n, g) c /\ In q (g_qubits g) /\ g_time g = t /\ kind (g_op g) = k.
  Proof.
    unfold life. rewrite in_map_iff. split.
    - intros ([n g] & E & I). injection E as <- <-. apply filter_In in I as [I M]. exists n, g. split; [|split; [apply mem_In; auto|auto]].
      eapply Permutation.Permutation_in; [apply Permutation.Permutation_sym, in_order_perm|exact I].
    - intros (n & g & I & Iq & <- & <-). exists (n, g). split; auto. apply filter_In. split; [eapply Permutation.Permutation_in; [apply in_order_perm|exact I]|apply mem_In; auto].
  Qed.
  Lemma alive_sorted q c : not_before start c -> StronglySorted (fun x y : Z * kinds => (fst x <= fst y)%Z) (alive kind start c q).
  Proof.
    intros Nb. unfold alive. apply sorted_app.
    - destruct start; repeat constructor.
    - unfold life. pose proof (in_order_sorted c) as H. induction H as [|x l S IH F]; simpl; [constructor|]. destruct (mem q (g_qubits (snd x))); simpl; auto. constructor; auto.
      apply Forall_forall. intros y Iy. apply in_map_iff in Iy as (z & <- & Iz). apply filter_In in Iz as [Iz _]. rewrite Forall_forall in F. apply (F z Iz).
    - intros a [t k] Ia Ib. destruct start as [s|]; [|contradiction]. destruct Ia as [<-|[]]. cbn. apply life_in in Ib as (n & g & I & _ & <- & _). eapply Nb; eauto.
  Qed.
  Lemma alive_in q c t k : In (t, k) (alive kind start c q) <-> In (t, k) (born start) \/ exists n g, In (n, g) c /\ In q (g_qubits g) /\ g_time g = t /\ kind (g_op g) = k.
  Proof. unfold alive. rewrite in_app_iff, life_in. tauto. Qed.
  Lemma alive_even q c t k : even_times c -> even_opt start -> In (t, k) (alive kind start c q) -> Z.even t = true.
  Proof.
    intros Ev Es I. apply alive_in in I as [I|(n & g & I & _ & <- & _)]; [|eapply Ev; eauto]. unfold born in I. destruct start as [s|]; [|contradiction].
    destruct I as [X|[]]. injection X as <- _. apply Es; auto.
  Qed.
  Lemma sorted_parts {A} (R : A -> A -> Prop) a x y b : StronglySorted R (a ++ x :: y :: b) -> (forall z, In z a -> R z x) /\ (forall z, In z b -> R y z).
  Proof.
    induction a as [|w a IH]; simpl; intros S; inversion S as [|? ? S' F]; subst.
    - split; [intros ? []|]. inversion S' as [|? ? _ F']; subst. rewrite Forall_forall in F'. auto.
    - destruct (IH S') as [A1 A2]. split; auto. intros z [<-|I]; auto. rewrite Forall_forall in F. apply F, in_app_iff. simpl. auto.
  Qed.
  Lemma mid_even t0 t : Z.even t0 = true -> Z.even t = true -> (t0 < t)%Z -> (t0 < mid t0 t < t)%Z.
  Proof.
    intros E0 E1 L. apply Z.even_spec in E0 as [u ->]. apply Z.even_spec in E1 as [v ->].
    assert (M : mid (2 * u) (2 * v) = (u + v)%Z) by (unfold mid; replace (2 * u + 2 * v)%Z with ((u + v) * 2)%Z by lia; apply Z.div_mul; lia). lia.
  Qed.

  Section Slots.
    Variable c : circ (op CK).
    Hypothesis Nb : not_before start c.
    Hypothesis Ev : even_times c.
    Hypothesis Es : even_opt start.
    Hypothesis Ee : even_opt stop.
    Notation sl := (slot kind start stop c).
    Notation al := (alive kind start c).
    (** nothing happens to the qubit inside a slot *)
    Lemma slot_between q t0 t m s u k : sl q t0 t m s -> In (u, k) (al q) -> (u <= t0 \/ t <= u)%Z.
    Proof.
      intros [_ [(a & k0 & k1 & b & m' & El & _)|(_ & (a & k0 & El & _) & _)]] I; pose proof (alive_sorted q Nb) as S; rewrite El in S, I.
      - destruct (sorted_parts _ _ _ _ S) as [S1 S2].
        apply in_app_iff in I as [I|[I|[I|I]]]; [left; apply (S1 _ I)|left|right|right; apply (S2 _ I)]; apply (f_equal fst) in I; cbn [fst] in I; lia.
      - left. eapply sorted_last; eauto.
    Qed.
    Lemma slot_ends q t0 t m s : sl q t0 t m s -> (exists k, In (t0, k) (al q)) /\
      ((exists k, In (t, k) (al q)) \/ (stop = Some t /\ forall u k, In (u, k) (al q) -> (u <= t0)%Z)) /\ (t0 < mid t0 t < t)%Z.
    Proof.
      intros [_ [(a & k0 & k1 & b & m' & El & H0 & H1 & Lt & _)|(Et & (a & k0 & El & H0 & Lt) & _)]].
      - assert (I0 : In (t0, k0) (al q)) by (rewrite El; apply in_app_iff; simpl; auto). assert (I1 : In (t, k1) (al q)) by (rewrite El; apply in_app_iff; simpl; auto).
        split; [eauto|]. split; [eauto|]. apply mid_even; auto; eapply alive_even; eauto.
      - assert (I0 : In (t0, k0) (al q)) by (rewrite El; apply in_app_iff; simpl; auto).
        split; [eauto|]. split; [right; split; auto; intros u k I; pose proof (alive_sorted q Nb) as S; rewrite El in S, I; eapply sorted_last; eauto|]. apply mid_even; auto. eapply alive_even; eauto.
    Qed.
    Lemma slot_apart q t0 t m s t0' t' m' s' : sl q t0 t m s -> sl q t0' t' m' s' -> (t' <= t0 \/ t <= t0' \/ (t0' = t0 /\ t' = t))%Z.
    Proof.
      intros G G'. destruct (slot_ends G) as ((k1 & I1) & H2 & L). destruct (slot_ends G') as ((k3 & I3) & H4 & L').
      pose proof (slot_between _ _ G I3) as A. pose proof (slot_between _ _ G' I1) as B.
      destruct H4 as [(k4 & I4)|[H4 M4]], H2 as [(k2 & I2)|[H2 M2]].
      - pose proof (slot_between _ _ G I4). pose proof (slot_between _ _ G' I2). lia.
      - pose proof (M2 _ _ I4). lia.
      - pose proof (M4 _ _ I2). lia.
      - assert (t' = t) by congruence. pose proof (M2 _ _ I3). pose proof (M4 _ _ I1). lia.
    Qed.
    (** a slot begins at an operation that leaves the qubit alive, or at the start, and then it ends at the first operation, which needs the qubit alive *)
    Lemma slot_from q t0 t m s : sl q t0 t m s ->
      (exists n g, In (n, g) c /\ In q (g_qubits g) /\ g_time g = t0 /\ k_meas (kind (g_op g)) = false) \/
      (start = Some t0 /\ (exists n g, In (n, g) c /\ In q (g_qubits g) /\ g_time g = t /\ k_state (kind (g_op g)) = false) /\
       forall n g, In (n, g) c -> In q (g_qubits g) -> (t <= g_time g)%Z).
    Proof.
      clear Ev Es Ee.
      assert (Li : forall k, In (t0, k) (life kind q (in_order c)) -> k_meas k = false -> exists n g, In (n, g) c /\ In q (g_qubits g) /\ g_time g = t0 /\ k_meas (kind (g_op g)) = false).
      { intros k I H. apply life_in in I as (n & g & A & B & C & D). exists n, g. rewrite D. auto. }
      pose proof (alive_sorted q Nb) as S. unfold slot, alive in *. intros [(nq & gq & Jq & Uq) [(a & k0 & k1 & b & m' & El & H0 & H1 & Lt & _)|(Et & (a & k0 & El & H0 & Lt) & _)]].
      - rewrite El in S. destruct start as [s0|]; cbn [born app] in El.
        + destruct a as [|x a]; [injection El as X _ El|injection El as X El].
          * right. subst t0. split; auto. split.
            -- assert (I : In (t, k1) (life kind q (in_order c))) by (rewrite El; simpl; auto). apply life_in in I as (n & g & A & B & C & D). exists n, g. rewrite D. auto.
            -- intros n g A B. assert (I : In (g_time g, kind (g_op g)) (life kind q (in_order c))) by (apply life_in; exists n, g; auto). rewrite El in I.
               destruct (sorted_parts [] _ _ _ S) as [_ S2]. destruct I as [X|I]; [injection X as <- _; lia|apply (S2 _ I)].
          * left. apply (Li k0); auto. rewrite El. apply in_app_iff. simpl. auto.
        + left. apply (Li k0); auto. rewrite El. apply in_app_iff. simpl. auto.
      - assert (I : In (g_time gq, kind (g_op gq)) (life kind q (in_order c))) by (apply life_in; exists nq, gq; auto).
        destruct start as [s0|]; cbn [born app] in El.
        + destruct a as [|x a]; [injection El as _ _ El; rewrite El in I; contradiction|injection El as X El]. left. apply (Li k0); auto. rewrite El. apply in_app_iff. simpl. auto.
        + left. apply (Li k0); auto. rewrite El. apply in_app_iff. simpl. auto.
    Qed.
    Lemma fresh_name q t0 t m s : names_fit c -> sl q t0 t m s -> ~ In (NT [NI (mid t0 t); NT [q]]) (keys c).
    Proof.
      intros Nf G I. apply in_map_iff in I as ([n g] & E & I). cbn in E. subst n. destruct (Nf _ _ _ I) as [T Q]. destruct (slot_ends G) as (_ & _ & L).
      assert (J : In (mid t0 t, kind (g_op g)) (al q)) by (apply alive_in; right; exists (NT [NI (mid t0 t); NT [q]]), g; rewrite Q; simpl; auto).
      pose proof (slot_between _ _ G J). lia.
    Qed.
  End Slots.
  Arguments slot_between {c} _ {q t0 t m s u k} _ _.
  Arguments slot_ends {c} _ _ _ _ {q t0 t m s} _.
  Arguments slot_from {c} _ {q t0 t m s} _.
  Arguments fresh_name {c} _ _ _ _ {q t0 t m s} _ _ _.
  Arguments slot_apart {c} _ _ _ _ {q t0 t m s t0' t' m' s'} _ _.

  (** every gap of every qubit, and its wait for the end, gets exactly one idle gate, as long as the gap, in its middle, and nothing else changes *)
  Theorem C64_fills_gaps c qs : gates_ok c -> all_qubits c = Ok qs -> names_fit c -> even_times c -> even_opt start -> even_opt stop -> not_before start c ->
    exists es, add_idle_noise kind unit p start stop c = Ok (c ++ es) /\
      (NoDup (keys c) -> NoDup (keys (c ++ es))) /\
      (forall x, In x es <-> exists q t0 t m s, slot kind start stop c q t0 t m s /\ x = filler unit p q t0 t m s).
  Proof.
    intros G Eq Nf Ev Es Ee Nb. unfold add_idle_noise. rewrite Eq. cbn [bind]. rewrite run_gates.
    assert (Nd : forall x, In x (in_order c) -> NoDup (g_qubits (snd x))).
    { intros [k g] I. apply (G k g). eapply Permutation.Permutation_in; [apply Permutation.Permutation_sym, in_order_perm|exact I]. }
    assert (Sa : forall q, since start q (events kind (in_order c)) = alive kind start c q) by (intros q; unfold since, alive; rewrite uses_life; auto).
    assert (Us : forall q, In q qs <-> used c q).
    { intros q. apply all_qubits_spec in Eq as (_ & _ & Eq). rewrite Eq, qubits_In. split; [intros ([k g] & I & J); exists k, g; auto|intros (k & g & I & J); exists (k, g); auto]. }
    assert (Ug : forall q t0 t m s, gap (alive kind start c q) t0 t m s -> slot kind start stop c q t0 t m s).
    { intros q t0 t m s Hg. split; auto. destruct Hg as (a & k0 & k & b & m' & El & _). assert (I : In (t, k) (life kind q (in_order c))).
      { unfold alive, born in El. destruct start as [s0|]; simpl in El; [destruct a; [injection El as _ _ El|injection El as _ El]|]; rewrite El; try (simpl; auto; fail); apply in_app_iff; simpl; auto. }
      apply life_in in I as (n & g & I & J & _). exists n, g. auto. }
    destruct (@run_ok unit p start qs c (events kind (in_order c))) as (cls & es & E & Nk & Ch & Kn & Kc).
    - intros [q x] I. apply in_flat_map in I as ([n g] & I & J). apply in_map_iff in J as (q' & J & Iq). injection J as <- <-. cbn. apply Us. exists n, g. split; auto.
      eapply Permutation.Permutation_in; [apply Permutation.Permutation_sym, in_order_perm|exact I].
    - pose proof (in_order_sorted c) as S. clear -S. induction S as [|x l S IH F]; simpl; [constructor|]. apply sorted_app; auto.
      + induction (g_qubits (snd x)) as [|q r IHr]; simpl; constructor; auto. apply Forall_forall. intros y Iy. apply in_map_iff in Iy as (q' & <- & _). unfold before. cbn. lia.
      + intros a b Ia Ib. apply in_map_iff in Ia as (q' & <- & _). apply in_flat_map in Ib as (y & Iy & Ib). apply in_map_iff in Ib as (q2 & <- & _).
        rewrite Forall_forall in F. apply (F y Iy).
    - intros s [q x] Hs I. apply in_flat_map in I as ([n g] & I & J). apply in_map_iff in J as (q' & J & Iq). injection J as <- <-. cbn.
      apply (Nb s Hs n g). eapply Permutation.Permutation_in; [apply Permutation.Permutation_sym, in_order_perm|exact I].
    - intros q t0 t m s Hg. rewrite Sa in Hg. eapply fresh_name; eauto.
    - rewrite E. cbn [bind fst snd].
      assert (Ch1 : forall x, In x es <-> exists q t0 t m s, gap (alive kind start c q) t0 t m s /\ x = filler unit p q t0 t m s).
      { intros x. rewrite Ch. unfold gaps. split; intros (q & t0 & t & m & s & Hg & ->); exists q, t0, t, m, s; (split; [|reflexivity]); rewrite Sa in *; auto. }
      assert (Nc1 : NoDup (keys c) -> NoDup (keys (c ++ es))).
      { intros Nc. unfold keys. rewrite map_app. apply NoDup_app_iff. split; [exact Nc|]. split; [exact Nk|]. intros k I1 I2. apply in_map_iff in I2 as (x & <- & I2).
        apply Ch1 in I2 as (q & t0 & t & m & s & Hg & ->). revert I1. eapply fresh_name; eauto. }
      assert (Fs : forall q t0 t m s, slot kind start stop c q t0 t m s -> ~ In (NT [NI (mid t0 t); NT [q]]) (keys c)) by (intros; eapply fresh_name; eauto).
      destruct stop as [e|] eqn:Est.
      + assert (Nq : NoDup qs) by (apply all_qubits_spec in Eq; tauto).
        assert (Fr2 : forall q t0, In q (keys cls) -> tail_gap (alive kind start c q) t0 e -> ~ In (NT [NI (mid t0 e); NT [q]]) (keys (c ++ es))).
        { intros q t0 Iq T. assert (Sl : slot kind start (Some e) c q t0 e None None) by (split; [apply Us; rewrite <- Kc; auto|right; auto]).
          unfold keys. rewrite map_app, in_app_iff. intros [I|I]; [exact (Fs _ _ _ _ _ Sl I)|].
          apply in_map_iff in I as (x & Ex & Ix). apply Ch1 in Ix as (q1 & t1 & t2 & m1 & s1 & Hg & ->). rewrite key_fill in Ex. injection Ex as Em ->.
          destruct (gap_in Hg) as [(k2 & I2) L2]. destruct T as (a & k0 & El & _ & Lt). pose proof (alive_sorted q Nb) as So. rewrite El in So, I2.
          assert (t2 <= t0)%Z by (eapply sorted_last; eauto). pose proof (mid_bound Lt). pose proof (mid_bound L2). lia. }
        destruct (@end_ok unit p e (alive kind start c) cls (c ++ es)) as (es2 & E2 & Nk2 & Ch2).
        * rewrite Kc. exact Nq.
        * intros q cl I. assert (Iq : In q qs) by (rewrite <- Kc; apply in_map_iff; exists (q, cl); auto). destruct (Kn q Iq) as (cl' & Gq & Kq).
          rewrite Sa in Kq. replace cl with cl'; auto. assert (Gq' : get q cls = Some cl) by (apply In_get; [rewrite Kc; exact Nq|exact I]). congruence.
        * exact Fr2.
        * exists (es ++ es2). rewrite E2. split; [rewrite <- app_assoc; reflexivity|]. split.
          -- intros Nc. rewrite app_assoc. unfold keys. rewrite map_app. apply NoDup_app_iff. split; [apply Nc1; auto|]. split; [exact Nk2|].
             intros k I1 I2. apply in_map_iff in I2 as (x & <- & I2). apply Ch2 in I2 as (q & t0 & Iq & T & ->). revert I1. apply Fr2; auto.
          -- intros x. rewrite in_app_iff, Ch1, Ch2. split.
             ++ intros [(q & t0 & t & m & s & Hg & ->)|(q & t0 & Iq & T & ->)]; [exists q, t0, t, m, s; auto|].
                exists q, t0, e, None, None. split; auto. split; [apply Us; rewrite <- Kc; auto|right; auto].
             ++ intros (q & t0 & t & m & s & (U & [Hg|(X & T & -> & ->)]) & ->); [left; exists q, t0, t, m, s; auto|right]. injection X as <-.
                exists q, t0. split; [rewrite Kc; apply Us; auto|auto].
      + exists es. split; [reflexivity|]. split; auto. intros x. rewrite Ch1. split.
        * intros (q & t0 & t & m & s & Hg & ->). exists q, t0, t, m, s. auto.
        * intros (q & t0 & t & m & s & (U & [Hg|(X & _)]) & ->); [|discriminate]. exists q, t0, t, m, s. auto.
  Qed.

  (** an operation that is not a measurement leaves its qubits alive, one that is no preparation needs them alive *)
  Definition kinds_fit (c : circ (op CK)) : Prop :=
    forall k g q, In (k, g) c -> In q (g_qubits g) ->
      (k_meas (kind (g_op g)) = false -> ends_out (history (acts_of [(k, g)]) q) = true) /\
      (k_state (kind (g_op g)) = false -> starts_in (history (acts_of [(k, g)]) q) = true).

  (** a circuit with a shape still has one *)
  Theorem C64_valid c sh c' : op_wf (OCirc c) -> op_shape (OCirc c) = Ok sh -> names_fit c -> even_times c -> even_opt start -> even_opt stop -> not_before start c ->
    kinds_fit c -> add_idle_noise kind unit p start stop c = Ok c' -> op_wf (OCirc c') /\ exists sh', op_shape (OCirc c') = Ok sh'.
  Proof.
    intros W E Nf Ev Es Ee Nb Kf A. inversion W as [| | | | | |? N Wg G|]; subst. destruct (circ_facts G E) as (Q & AQ & _).
    destruct (C64_fills_gaps G AQ Nf Ev Es Ee Nb) as (es & A' & Nk & Ch). rewrite A in A'. injection A' as ->. specialize (Nk N).
    assert (H : forall f1 f2, es = f1 ++ f2 -> op_wf (OCirc (c ++ f1)) /\ exists sh', op_shape (OCirc (c ++ f1)) = Ok sh').
    2: { apply (H es []). rewrite app_nil_r. auto. }
    induction f1 as [|e f1 IH] using rev_ind; intros f2 Ees; [rewrite app_nil_r; eauto|]. rewrite <- app_assoc in Ees.
    destruct (IH _ Ees) as (W1 & sh1 & E1). clear IH. rewrite app_assoc.
    assert (Ie : In e es) by (rewrite Ees; apply in_app_iff; simpl; auto). apply Ch in Ie as (q & t0 & t & m & s & Hg & He).
    destruct (slot_ends Nb Ev Es Ee Hg) as (_ & _ & Lm).
    assert (Nkf : ~ In (fst e) (keys (c ++ f1))).
    { rewrite Ees in Nk. unfold keys in *. replace (c ++ f1 ++ [e] ++ f2) with ((c ++ f1) ++ e :: f2) in Nk by (rewrite <- app_assoc; reflexivity).
      rewrite map_app in Nk. apply NoDup_app_iff in Nk as (_ & _ & Nk). intros I. apply (Nk _ I). simpl. auto. }
    rewrite He in *. unfold filler in *. cbn [fst] in Nkf.
    assert (Away : forall k g, In (k, g) (c ++ f1) -> In q (g_qubits g) -> (g_time g <= t0 \/ t <= g_time g)%Z).
    { intros k g I Ig. apply in_app_iff in I as [I|I].
      - assert (L : In (g_time g, kind (g_op g)) (alive kind start c q)) by (apply alive_in; right; exists k, g; auto). exact (slot_between Nb Hg L).
      - assert (I' : In (k, g) es) by (rewrite Ees; apply in_app_iff; auto). apply Ch in I' as (q' & t0' & t' & m' & s' & Hg' & X). unfold filler in X. injection X as -> ->.
        cbn [g_qubits g_time] in *. destruct Ig as [->|[]]. destruct (slot_ends Nb Ev Es Ee Hg') as (_ & _ & L'). unfold mid in *.
        destruct (slot_apart Nb Ev Es Ee Hg Hg') as [X|[X|[-> ->]]]; [lia|lia|exfalso]. apply Nkf. apply in_map_iff. eexists. split; [|apply in_app_iff; right; exact I]. reflexivity. }
    destruct (slot_from Nb Hg) as [(k0 & g0 & I0 & Iq & T0 & Hm)|(St & (k0 & g0 & I0 & Iq & T0 & Hm) & First)].
    - apply (@insert_after CK (c ++ f1) sh1 _ _ q _ k0 g0 W1 E1); auto.
      + apply in_app_iff; auto.
      + rewrite T0. apply Lm.
      + apply (Kf k0 g0 q); auto.
      + intros k g I Ig. rewrite T0. destruct (Away k g I Ig); [auto|]. right. unfold mid in Lm. lia.
      + apply channel_wf.
    - apply (@insert_before CK (c ++ f1) sh1 _ _ q _ k0 g0 W1 E1); auto.
      + apply in_app_iff; auto.
      + rewrite T0. apply Lm.
      + apply (Kf k0 g0 q); auto.
      + intros k g I Ig. rewrite T0. pose proof (Away k g I Ig) as Aw. apply in_app_iff in I as [I|I]; [eapply First; eauto|].
        assert (I' : In (k, g) es) by (rewrite Ees; apply in_app_iff; auto).
        apply Ch in I' as (q' & t0' & t' & m' & s' & Hg' & X). unfold filler in X. injection X as -> ->. cbn [g_qubits g_time] in *. destruct Ig as [->|[]].
        destruct (slot_ends Nb Ev Es Ee Hg') as ((k1 & I1) & _ & L'). unfold mid in L'. apply alive_in in I1 as [I1|(n1 & g1 & I1 & _ & T1 & _)].
        * unfold born in I1. rewrite St in I1. destruct I1 as [X|[]]. injection X as X _. lia.
        * pose proof (Nb _ St n1 g1 I1). lia.
      + apply channel_wf.
  Qed.

  (** and it stays physical, if the idle gates are: it preserves the trace and has Kraus operators *)
  Theorem C64_physical c sh c' : NoDup (keys c) -> gates_ok c -> (forall k g, In (k, g) c -> qec_op (g_op g)) -> op_shape (OCirc c) = Ok sh ->
    names_fit c -> even_times c -> even_opt start -> even_opt stop -> not_before start c -> kinds_fit c -> (0 <= unit)%R -> (0 <= T_1_inv p)%R ->
    (forall q t0 t m s, slot kind start stop c q t0 t m s -> coherence (IZR (t - t0) * unit) p (echo_times unit t0 t m s) <= 1)%R ->
    add_idle_noise kind unit p start stop c = Ok c' -> preserves_trace (OCirc c') /\ exists Ks, has_kraus (OCirc c') Ks.
  Proof.
    intros N G Hq E Nf Ev Es Ee Nb Kf Hu Ht Hc A.
    assert (W : op_wf (OCirc c)) by (apply (qec_ok (qec_circuit N G Hq E))).
    destruct (C64_valid W E Nf Ev Es Ee Nb Kf A) as (W' & sh' & E'). inversion W' as [| | | | | |? N' _ G'|]; subst.
    apply C63_circuits. refine (qec_circuit N' G' _ E').
    destruct (circ_facts G E) as (Q & AQ & _). destruct (C64_fills_gaps G AQ Nf Ev Es Ee Nb) as (es & A' & _ & Ch). rewrite A in A'. injection A' as ->.
    intros k g I. apply in_app_iff in I as [I|I]; [eauto|]. apply Ch in I as (q & t0 & t & m & s & Hg & X). unfold filler in X. injection X as -> ->. cbn [g_op].
    destruct (slot_ends Nb Ev Es Ee Hg) as (_ & _ & L). apply qec_idle; auto; [|eapply Hc; exact Hg].
    apply Rmult_le_pos; auto. apply IZR_le. lia.
  Qed.
End C64.
Print Assumptions C64_fills_gaps.
Print Assumptions C64_valid.
Print Assumptions C64_physical.

(** three operations on qubit 0 and two on qubit 1: a preparation, an ND measurement, a noisy Hadamard gate, ... *)
Definition ex_kind (o : op CK) : kinds :=
  match o with
  | OState _ => Kinds true false false false
  | OMeas _ => Kinds false true false false
  | OImm _ _ => Kinds false false true false
  | OCirc _ => Kinds false false false true
  | _ => Kinds false false false false
  end.
Definition ex_h : op CK := OCirc [(NS "h", Gate 0%Z [NI 0] HGate)].
Definition auto_named (t : Z) (qs : list name) (o : op CK) : name * gate (op CK) := (NT [NI t; NT qs], Gate t qs o).
Definition ex_idle : circ (op CK) :=
  [auto_named 0 [NI 0] (OState false); auto_named 2 [NI 0] NDCompMeas; auto_named 6 [NI 0] ex_h; auto_named 10 [NI 0; NI 1] CZGate; auto_named 14 [NI 1] HGate; auto_named 12 [NI 0] (OMeas false)].
Lemma hgate_wf : op_wf HGate.
Proof. unfold HGate. wf_gate. Qed.
Example C64_somewhere : op_wf (OCirc ex_idle) /\ op_shape (OCirc ex_idle) = Ok [RW [LO; LI]; RW [LI; LO]] /\ names_fit ex_idle /\ even_times ex_idle /\ kinds_fit ex_kind ex_idle /\
  add_idle_noise ex_kind 1 demo_params None None ex_idle = Ok (ex_idle ++
    [filler 1 demo_params (NI 0) 0 2 (Some 2%Z) None; filler 1 demo_params (NI 0) 2 6 (Some 2%Z) None; filler 1 demo_params (NI 0) 6 10 (Some 2%Z) (Some 6%Z);
     filler 1 demo_params (NI 0) 10 12 (Some 2%Z) (Some 6%Z); filler 1 demo_params (NI 1) 10 14 None None]) /\
  gap (life ex_kind (NI 0) (in_order ex_idle)) 6 10 (Some 2%Z) (Some 6%Z).
Proof.
  split.
  { constructor; [repeat constructor; simpl; intuition discriminate| |].
    - intros k g I. repeat destruct I as [I|I]; try contradiction; injection I as <- <-; cbn [g_op].
      + constructor.
      + apply (physical_ok ph_measure).
      + constructor; [repeat constructor; simpl; intuition discriminate| |].
        * intros k g [I|[]]. injection I as <- <-. cbn [g_op]. apply hgate_wf.
        * intros k g [I|[]]. injection I as <- <-. split; [repeat constructor; simpl; intuition discriminate|reflexivity].
      + apply (cz_on NoAngle).
      + apply hgate_wf.
      + constructor.
    - intros k g I. repeat destruct I as [I|I]; try contradiction; injection I as <- <-; (split; [repeat constructor; simpl; intuition discriminate|reflexivity]). }
  split; [reflexivity|]. split; [|split; [|split; [|split]]].
  - intros t q g I. repeat destruct I as [I|I]; try contradiction; first [discriminate I | injection I as <- <- <-; split; reflexivity].
  - intros k g I. repeat destruct I as [I|I]; try contradiction; injection I as <- <-; reflexivity.
  - intros k g q I Iq. repeat destruct I as [I|I]; try contradiction; injection I as <- <-; repeat destruct Iq as [<-|Iq]; try contradiction; split; intros; try discriminate; reflexivity.
  - reflexivity.
  - exists [(0%Z, ex_kind (OState false)); (2%Z, ex_kind NDCompMeas)], (ex_kind ex_h), (ex_kind CZGate), [(12%Z, ex_kind (OMeas false))], (Some 2%Z).
    split; [reflexivity|]. split; [reflexivity|]. split; [reflexivity|]. split; [lia|]. split; [|reflexivity].
    apply (@echo_begin _ 6 (ex_kind ex_h) (Some 2%Z)); [|reflexivity|reflexivity].
    apply (@echo_other [(0%Z, ex_kind (OState false))] 2 (ex_kind NDCompMeas) None None); [|reflexivity].
    apply (@echo_other [] 0 (ex_kind (OState false)) None None); [constructor|reflexivity].
Qed.

(** a circuit to which C64_physical applies *)
Definition ex_wait : circ (op CK) := [auto_named 0 [NI 0] (OState false); auto_named 2 [NI 0] NDCompMeas; auto_named 6 [NI 0] NDCompMeas; auto_named 10 [NI 0] NDCompMeas; auto_named 4 [NI 1] NDCompMeas].
Example C64_physical_somewhere : exists c', add_idle_noise ex_kind 1 demo_params (Some (-4)%Z) (Some 20%Z) ex_wait = Ok c' /\ length c' = 11 /\ preserves_trace (OCirc c') /\ exists Ks, has_kraus (OCirc c') Ks.
Proof.
  eexists. split; [reflexivity|]. split; [reflexivity|]. apply (@C64_physical ex_kind 1 demo_params (Some (-4)%Z) (Some 20%Z) ex_wait [RW [LO]; RW [LI; LO]]).
  - repeat constructor; simpl; intuition discriminate.
  - intros k g I. repeat destruct I as [I|I]; try contradiction; injection I as <- <-; (split; [repeat constructor; simpl; intuition discriminate|reflexivity]).
  - intros k g I. repeat destruct I as [I|I]; try contradiction; injection I as <- <-; cbn [g_op]; apply qec_physical; try apply ph_state; apply ph_measure.
  - reflexivity.
  - intros t q g I. repeat destruct I as [I|I]; try contradiction; injection I as <- <- <-; split; reflexivity.
  - intros k g I. repeat destruct I as [I|I]; try contradiction; injection I as <- <-; reflexivity.
  - intros z X. injection X as <-. reflexivity.
  - intros z X. injection X as <-. reflexivity.
  - intros z X k g I. injection X as <-. repeat destruct I as [I|I]; try contradiction; injection I as <- <-; cbn; lia.
  - intros k g q I Iq. repeat destruct I as [I|I]; try contradiction; injection I as <- <-; repeat destruct Iq as [<-|Iq]; try contradiction; split; intros; try discriminate; reflexivity.
  - lra.
  - cbn. lra.
  - intros q t0 t m s G. assert (s = None) as ->.
    { destruct G as [_ [G|(_ & _ & _ & G)]]; [|exact G]. destruct G as (a & k0 & k & b & m' & El & _ & _ & _ & Ec & _).
      assert (Nh : forall x, In x (a ++ [(t0, k0)]) -> k_noisyh (snd x) = false).
      { intros [u y] I. assert (I' : In (u, y) (alive ex_kind (Some (-4)%Z) ex_wait q)) by (rewrite El; apply in_app_iff; apply in_app_iff in I as [I|[I|[]]]; simpl; auto).
        apply alive_in in I' as [[I'|[]]|(n & g & I' & _ & _ & <-)]; [injection I' as _ <-; reflexivity|]. cbn [snd]. repeat destruct I' as [I'|I']; try contradiction; injection I' as <- <-; reflexivity. }
      clear El. remember (a ++ [(t0, k0)]) as l eqn:El. clear El. induction Ec as [|l t1 k1 m1 s1 Ec IH H|l t1 k1 s1 Ec IH H1 H2|l t1 k1 m1 m2 Ec IH H1 H2|l t1 k1 m1 m2 s1 Ec IH H1 H2]; auto.
      - apply IH. intros x I. apply Nh, in_app_iff; auto.
      - apply IH. intros x I. apply Nh, in_app_iff; auto.
      - exfalso. specialize (Nh (t1, k1)). cbn in Nh. rewrite Nh in H1; [discriminate|]. apply in_app_iff. simpl. auto. }
    assert (echo_times 1 t0 t m None = None) as -> by (destruct m; reflexivity). assert (L : (t0 < t)%Z) by (destruct G as [_ [G|(_ & (a & k0 & _ & _ & L) & _)]]; [apply (gap_in G)|exact L]).
    unfold coherence. rewrite Rmult_1_r, Rmult_1_r. assert (H : (0 <= IZR (t - t0))%R) by (apply IZR_le; lia).
    destruct (Req_dec (IZR (t - t0)) 0) as [->|D].
    + replace (- 0 * T_phi_inv demo_params)%R with 0%R by (cbn; field). rewrite exp_0. lra.
    + assert (X : (- IZR (t - t0) * T_phi_inv demo_params < 0)%R) by (cbn; lra). apply exp_increasing in X. rewrite exp_0 in X. lra.
  - reflexivity.
Qed.

(** the hypothesis on names is needed: an operation that was given the name of an idle gate is lost *)
Definition ex_clash : circ (op CK) :=
  [auto_named 0 [NI 0] HGate; auto_named 4 [NI 0] HGate; (NT [NI 2; NT [NI 0]], Gate 0%Z [NI 1] XGate)].
Theorem C64_names_refuted : NoDup (keys ex_clash) /\ gates_ok ex_clash /\ even_times ex_clash /\
  exists c', add_idle_noise ex_kind 1 demo_params None None ex_clash = Ok c' /\ (forall k g, In (k, g) c' -> ~ In (NI 1) (g_qubits g)).
Proof.
  split; [repeat constructor; simpl; intuition discriminate|]. split; [|split].
  - intros k g I. repeat destruct I as [I|I]; try contradiction; injection I as <- <-; (split; [repeat constructor; simpl; intuition discriminate|reflexivity]).
  - intros k g I. repeat destruct I as [I|I]; try contradiction; injection I as <- <-; reflexivity.
  - eexists. split; [reflexivity|]. intros k g I. repeat destruct I as [I|I]; try contradiction; injection I as <- <-; cbn; intuition discriminate.
Qed.
Print Assumptions C64_names_refuted.
