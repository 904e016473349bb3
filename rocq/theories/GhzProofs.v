(** The circuit of examples/GHZ.py prepares the GHZ state. *)
From Coq Require Import Reals Lra Lia Sorting.Permutation Sorting.Sorted.
From Verif Require Import Base Scalar NetSpec Sums NetAlg ModelArray ModelTN TNInv TNOps TNSpec TNValue TNExact TNEdit
  TNEdit2 ModelVal ModelOps OpsSpec OpsProofs OpsValue ModelContract ContractExec NameOrder CircSpec CircSum CircOrder ModelCircuit CircSem CircShape
  CircWire CircStep CircNet CircCtrl CircWhen CircOp CircMain CircBuild CircUse DensSpec CircDens CircDensNet CircDensOp CircPure ChanCirc CircFlat FlatSpec CircNest CircNest2 CircNest3
  ModelNoise NoisySpec NoiseAdd Complex ModelGates GateSpec MatSpec MatProofs GateProofs ModelGhz.
Set Implicit Arguments.
Open Scope nat_scope.

Definition entry (o : op CK) (qs : list name) : name * gate (op CK) := (NI 0, Gate 0 qs o).
Definition fan (j : nat) : circ (op CK) := [entry (OState false) [qubit j]; entry CNOTGate [qubit 0; qubit j]].
Definition ghz_list (n : nat) : circ (op CK) :=
  entry (OState false) [qubit 0] :: entry HGate [qubit 0] :: flat_map fan (seq 1 (n - 1)).

Lemma loop_extend : forall k i a, ghz_loop k i a = c_extend (flat_map fan (seq (i + 1) k)) a.
Proof.
  induction k as [|k IH]; intros i a; [reflexivity|]. cbn [ghz_loop seq flat_map]. unfold fan at 1. cbn [app c_extend entry g_op g_qubits].
  destruct (c_append (OState false) [qubit (i + 1)] None None a) as [a1|]; [|reflexivity]. cbn [bind].
  destruct (c_append CNOTGate [qubit 0; qubit (i + 1)] None None a1) as [a2|]; [|reflexivity]. cbn [bind]. rewrite IH. reflexivity.
Qed.
Lemma ghz_extend n : ghz n = c_extend (ghz_list n) [].
Proof.
  unfold ghz, ghz_list. cbn [c_extend entry g_op g_qubits].
  destruct (c_append (OState false) [qubit 0] None None []) as [a1|]; [|reflexivity]. cbn [bind].
  destruct (c_append HGate [qubit 0] None None a1) as [a2|]; [|reflexivity]. cbn [bind]. apply loop_extend.
Qed.

Lemma qubit_inj i j : qubit i = qubit j -> i = j.
Proof. unfold qubit. intros E. injection E. lia. Qed.
Lemma ghz_In n k g : In (k, g) (ghz_list n) ->
  g = Gate 0 [qubit 0] (OState false) \/ g = Gate 0 [qubit 0] HGate \/
  exists j, 1 <= j < max n 1 /\ (g = Gate 0 [qubit j] (OState false) \/ g = Gate 0 [qubit 0; qubit j] CNOTGate).
Proof.
  intros [E|[E|I]]; [left; inversion E; auto|right; left; inversion E; auto|]. right. right.
  apply in_flat_map in I as (j & Ij & I). apply in_seq in Ij. exists j. split; [lia|]. destruct I as [E|[E|[]]]; inversion E; auto.
Qed.
Lemma wf_ghz_op n k g : In (k, g) (ghz_list n) -> op_wf (g_op g).
Proof.
  intros I. apply ghz_In in I as [->|[->|(j & _ & [->| ->])]]; cbn [g_op]; constructor; try constructor; reflexivity.
Qed.
Lemma gates_ghz n : gates_ok (ghz_list n).
Proof.
  intros k g I. apply ghz_In in I as [->|[->|(j & L & [->| ->])]]; cbn [g_op g_qubits]; (split; [|reflexivity]); repeat constructor; simpl; try tauto.
  intros [E|[]]. apply qubit_inj in E. lia.
Qed.
Lemma late_empty : late_names_free (S := CK) [].
Proof. intros t qs _ []. Qed.
Lemma ghz_ok n : ghz n = Ok (stacked_after 0 (ghz_list n)).
Proof. rewrite ghz_extend, extend_ok; [reflexivity|apply gates_ghz|apply late_empty]. Qed.
Lemma ghz_used n q : used (ghz_list n) q <-> In q (range_names (max n 1)).
Proof.
  unfold range_names. rewrite in_map_iff. split.
  - intros (k & g & I & J). apply ghz_In in I as [->|[->|(j & L & [->| ->])]]; cbn [g_qubits] in J; simpl in J.
    + destruct J as [<-|[]]. exists 0. split; auto. apply in_seq. lia.
    + destruct J as [<-|[]]. exists 0. split; auto. apply in_seq. lia.
    + destruct J as [<-|[]]. exists j. split; auto. apply in_seq. lia.
    + destruct J as [<-|[<-|[]]]; [exists 0|exists j]; (split; auto; apply in_seq; lia).
  - intros (j & <- & I). apply in_seq in I. destruct j as [|j].
    + exists (NI 0), (Gate 0 [qubit 0] (OState false)). split; [left; reflexivity|left; reflexivity].
    + exists (NI 0), (Gate 0 [qubit (Datatypes.S j)] (OState false)). split; [|left; reflexivity]. right. right.
      apply in_flat_map. exists (Datatypes.S j). split; [apply in_seq; lia|left; reflexivity].
Qed.

(** ** the wires *)
Definition zero_act (q : name) : act CK := Act [q] [[LO]] (fun o _ => kdelta (eqb o [0])).
Definition h_act (q : name) : act CK := Act [q] [[LI; LO]] (op_amp HGate).
Definition cnot_act (q r : name) : act CK := Act [q; r] [[LI; LO]; [LI; LO]] (op_amp CNOTGate).
Definition fan_acts (j : nat) : list (act CK) := [zero_act (qubit j); cnot_act (qubit 0) (qubit j)].
Lemma acts_fan l : map (@gate_act CK) (flat_map fan l) = flat_map fan_acts l.
Proof. induction l as [|j l IH]; auto. cbn [flat_map]. rewrite map_app, IH. reflexivity. Qed.
Lemma acts_ghz n : map (@gate_act CK) (ghz_list n) = zero_act (qubit 0) :: h_act (qubit 0) :: flat_map fan_acts (seq 1 (n - 1)).
Proof. unfold ghz_list. cbn [map]. rewrite acts_fan. reflexivity. Qed.

Fixpoint io (k : nat) : word := match k with 0 => [] | Datatypes.S k => LI :: LO :: io k end.
Lemma word_one q r ws : word_at (Act (S := CK) [q] [ws] (fun _ _ => k0)) r = if eqb r q then ws else [].
Proof. unfold word_at. cbn. destruct (eqb r q); auto. Qed.
Lemma fan_hist_0 : forall l, (forall j, In j l -> 1 <= j) -> history (flat_map fan_acts l) (qubit 0) = io (length l).
Proof.
  induction l as [|j l IH]; intros H; auto. cbn [flat_map]. unfold history in *. rewrite map_app, concat_app. rewrite IH by (intros; apply H; simpl; auto).
  cbn [map concat fan_acts]. unfold word_at. cbn [on words zero_act cnot_act combine get].
  assert (N : 1 <= j) by (apply H; simpl; auto).
  destruct (eqb_spec (qubit 0) (qubit j)) as [E|_]; [apply qubit_inj in E; lia|]. rewrite eqb_refl. reflexivity.
Qed.
Lemma fan_hist_q q : q <> qubit 0 -> forall l, NoDup l -> history (flat_map fan_acts l) q = if existsb (fun j => eqb q (qubit j)) l then [LO; LI; LO] else [].
Proof.
  intros Nq l N. induction N as [|j l Nj N IH]; auto. cbn [flat_map]. unfold history in *. rewrite map_app, concat_app, IH. clear IH.
  cbn [map concat fan_acts existsb]. unfold word_at. cbn [on words zero_act cnot_act combine get].
  destruct (eqb_spec q (qubit 0)) as [E|_]; [contradiction|].
  destruct (eqb_spec q (qubit j)) as [->|_]; [|reflexivity]. cbn [orb].
  assert (E : existsb (fun i => eqb (qubit j) (qubit i)) l = false).
  { apply not_true_is_false. intros H. apply existsb_exists in H as (i & Ii & H). apply (proj1 (eqb_eq _ _)) in H. apply qubit_inj in H. subst. contradiction. }
  rewrite E. reflexivity.
Qed.
Lemma io_alt k : alternating (LO :: io k).
Proof. induction k as [|k IH]; [exact I|]. split; [discriminate|]. split; [discriminate|]. exact IH. Qed.
Lemma io_len k : length (io k) = 2 * k.
Proof. induction k; simpl in *; lia. Qed.
Lemma ghz_hist n q : history (map (@gate_act CK) (ghz_list n)) q =
  if eqb q (qubit 0) then LO :: io (1 + (n - 1)) else if existsb (fun j => eqb q (qubit j)) (seq 1 (n - 1)) then [LO; LI; LO] else [].
Proof.
  rewrite acts_ghz.
  change (history (zero_act (qubit 0) :: h_act (qubit 0) :: flat_map fan_acts (seq 1 (n - 1))) q)
    with (word_at (zero_act (qubit 0)) q ++ word_at (h_act (qubit 0)) q ++ history (flat_map fan_acts (seq 1 (n - 1))) q).
  unfold word_at at 1 2. cbn [on words zero_act h_act combine get]. destruct (eqb_spec q (qubit 0)) as [->|N].
  - rewrite fan_hist_0 by (intros j I; apply in_seq in I; lia). rewrite seq_length. reflexivity.
  - rewrite fan_hist_q; [reflexivity|auto|apply seq_NoDup].
Qed.
Lemma ghz_alt n q : alternating (history (map (@gate_act CK) (ghz_list n)) q).
Proof.
  rewrite ghz_hist. destruct (eqb q (qubit 0)); [apply io_alt|]. destruct (existsb _ _); simpl; auto; repeat split; discriminate.
Qed.
Lemma truncate_io k : truncate (LO :: io k) = [LO].
Proof.
  unfold truncate. cbn [length]. rewrite io_len. replace (Datatypes.S (2 * k)) with (1 + k * 2) by lia. rewrite Nat.mod_add by lia. reflexivity.
Qed.
Lemma ghz_shape n : op_wf (OCirc (stacked_after 0 (ghz_list n))) /\ op_shape (OCirc (stacked_after 0 (ghz_list n))) = Ok (repeat (RW [LO]) (max n 1)).
Proof.
  destruct (@stacked_circ CK 0 (ghz_list n) (max n 1)) as (W & _ & E).
  - intros k g I. eapply wf_ghz_op; eauto.
  - apply gates_ghz.
  - intros q. apply ghz_used.
  - apply ghz_alt.
  - split; auto. rewrite E. f_equal. unfold range_names. rewrite map_map.
    transitivity (map (fun _ : nat => RW [LO]) (seq 0 (max n 1))).
    + apply map_ext_in. intros j I. apply in_seq in I. f_equal. rewrite ghz_hist. fold (qubit j). destruct (eqb_spec (qubit j) (qubit 0)) as [_|N].
      * apply truncate_io.
      * replace (existsb _ _) with true; [reflexivity|]. symmetry. apply existsb_exists. exists j. split; [|apply eqb_refl]. apply in_seq.
        destruct j; [exfalso; apply N; reflexivity|lia].
    + generalize 0 at 1. generalize (max n 1). induction n0 as [|k IH]; intros s; simpl; f_equal; auto.
Qed.

Definition flip (a b : nat) : nat := if Nat.eqb a 0 then b else (1 - b).
Lemma cnot_amp a b c d : a < 2 -> b < 2 -> c < 2 -> d < 2 ->
  op_amp CNOTGate [a; b] [c; d] = kdelta (Nat.eqb c a && Nat.eqb d (flip a b)).
Proof.
  intros. destruct a as [|[|]], b as [|[|]], c as [|[|]], d as [|[|]]; try lia; eval_entry; try reflexivity; ck; ring.
Qed.
Lemma h_amp a : a < 2 -> op_amp HGate [a] [0] = cr (/ sqrt 2).
Proof. intros. rewrite <- sqrt_half. destruct a as [|[|]]; try lia; eval_entry; try reflexivity; ck; ring. Qed.

(** ** the state *)
Section State.
  Variable n : nat.
  Hypothesis Pos : 1 <= n.
  Notation Q := (range_names n).
  Local Open Scope K_scope.
  Add Ring Kring_ghz : (kring CK).
  Definition bitty (e : env (A := name)) : Prop := forall q, In q Q -> (e q < 2)%nat.
  Lemma in_Q j : (j < n)%nat -> In (qubit j) Q.
  Proof. intros L. unfold range_names. apply in_map_iff. exists j. split; auto. apply in_seq. lia. Qed.
  (** the first [k] qubits carry one bit, the others 0 *)
  Definition same (k : nat) (e : env (A := name)) : bool :=
    forallb (fun j => Nat.eqb (e (qubit j)) (if (j <? k)%nat then e (qubit 0) else 0%nat)) (seq 0 n).
  Lemma same_ext k e e' : (forall q, In q Q -> e q = e' q) -> same k e = same k e'.
  Proof.
    intros E. unfold same. apply forallb_iff. assert (E0 : e (qubit 0) = e' (qubit 0)) by (apply E, in_Q; lia).
    split; intros H j I; specialize (H j I); apply in_seq in I; rewrite (E (qubit j)), E0 in * by (apply in_Q; lia); auto.
  Qed.
  Lemma same_true k e : same k e = true <-> forall j, (j < n)%nat -> e (qubit j) = if (j <? k)%nat then e (qubit 0) else 0%nat.
  Proof.
    unfold same. rewrite forallb_forall. split; intros H j I.
    - apply Nat.eqb_eq. apply H. apply in_seq. lia.
    - apply Nat.eqb_eq. apply H. apply in_seq in I. lia.
  Qed.
  Definition part_state (r : CK) (k : nat) : env (A := name) -> CK := fun e => r * kdelta (same k e).
  Lemma part_depends r k : depends_on (S := CK) Q (part_state r k).
  Proof. intros e e' E. unfold part_state. rewrite (@same_ext k e e'); auto. Qed.
  Lemma upd_eq (e : env (A := name)) q b : upd e q b q = b.
  Proof. unfold upd. rewrite eqb_refl. auto. Qed.
  Lemma upd_neq (e : env (A := name)) q b r : r <> q -> upd e q b r = e r.
  Proof. unfold upd. intros N. destruct (eqb_spec r q); congruence. Qed.

  Lemma zero_step q psi e : In q Q -> depends_on (S := CK) Q psi -> bitty e ->
    evolve Q (zero_act q) psi e = kdelta (Nat.eqb (e q) 0) * psi (upd e q 0%nat).
  Proof.
    intros I D B. rewrite evolve_closed; auto; [|apply range_NoDup|repeat constructor; simpl; tauto|intros x [<-|[]]; auto].
    assert (W : forall x, word_at (zero_act q) x = if eqb x q then [LO] else []).
    { intros x. unfold word_at. cbn. destruct (eqb x q); auto. }
    assert (A : forallb (fun x => after_ok (word_at (zero_act q) x) (e x)) Q = true).
    { apply forallb_forall. intros x _. rewrite W. destruct (eqb x q); reflexivity. }
    assert (Ai : act_ins (zero_act q) = []). { unfold act_ins. cbn [on zero_act filter]. rewrite W, eqb_refl. reflexivity. }
    assert (Ao : act_outs (zero_act q) = [q]). { unfold act_outs. cbn [on zero_act filter]. rewrite W, eqb_refl. reflexivity. }
    rewrite A, Ai, Ao. cbn [qdom map esum amp zero_act]. rewrite (D _ (upd e q 0%nat)).
    - cbn [kdelta]. rewrite eqb_cons. change (eqb (@nil nat) []) with true. rewrite andb_true_r. ring.
    - intros x _. unfold pre0. rewrite W. unfold upd. destruct (eqb x q); auto.
  Qed.
  Lemma h_step q psi e : In q Q -> depends_on (S := CK) Q psi -> bitty e ->
    evolve Q (h_act q) psi e = op_amp HGate [e q] [0%nat] * psi (upd e q 0%nat) + op_amp HGate [e q] [1%nat] * psi (upd e q 1%nat).
  Proof.
    intros I D B. rewrite evolve_closed; auto; [|apply range_NoDup|repeat constructor; simpl; tauto|intros x [<-|[]]; auto].
    assert (W : forall x, word_at (h_act q) x = if eqb x q then [LI; LO] else []).
    { intros x. unfold word_at. cbn. destruct (eqb x q); auto. }
    assert (A : forallb (fun x => after_ok (word_at (h_act q) x) (e x)) Q = true).
    { apply forallb_forall. intros x _. rewrite W. destruct (eqb x q); reflexivity. }
    assert (Ai : act_ins (h_act q) = [q]). { unfold act_ins. cbn [on h_act filter]. rewrite W, eqb_refl. reflexivity. }
    assert (Ao : act_outs (h_act q) = [q]). { unfold act_outs. cbn [on h_act filter]. rewrite W, eqb_refl. reflexivity. }
    rewrite A, Ai, Ao, esum_bits. cbn [length repeat indices amp h_act].
    cbn [map flat_map app sumf fold_right upds concat seq]. rewrite !upd_eq.
    assert (P : forall b, psi (upd (pre0 (h_act q) e) q b) = psi (upd e q b)).
    { intros b. apply D. intros x _. unfold upd, pre0. rewrite W. destruct (eqb x q); auto. }
    rewrite !P. cbn [kdelta]. ring.
  Qed.
  Lemma cnot_step q r psi e : q <> r -> In q Q -> In r Q -> depends_on (S := CK) Q psi -> bitty e ->
    evolve Q (cnot_act q r) psi e = psi (upd e r (flip (e q) (e r))).
  Proof.
    intros N I J D B. rewrite evolve_closed; auto; [|apply range_NoDup|repeat constructor; simpl; intuition congruence|intros x [<-|[<-|[]]]; auto].
    assert (W : forall x, word_at (cnot_act q r) x = if eqb x q then [LI; LO] else if eqb x r then [LI; LO] else []).
    { intros x. unfold word_at. cbn. destruct (eqb x q), (eqb x r); auto. }
    assert (A : forallb (fun x => after_ok (word_at (cnot_act q r) x) (e x)) Q = true).
    { apply forallb_forall. intros x _. rewrite W. destruct (eqb x q), (eqb x r); reflexivity. }
    assert (Nr : eqb r q = false) by (destruct (eqb_spec r q); congruence).
    assert (Ai : act_ins (cnot_act q r) = [q; r]). { unfold act_ins. cbn [on cnot_act filter]. rewrite !W, Nr, !eqb_refl. reflexivity. }
    assert (Ao : act_outs (cnot_act q r) = [q; r]). { unfold act_outs. cbn [on cnot_act filter]. rewrite !W, Nr, !eqb_refl. reflexivity. }
    rewrite A, Ai, Ao, esum_bits. cbn [length repeat indices amp cnot_act].
    cbn [map flat_map app sumf fold_right upds concat seq].
    assert (P : forall a b, psi (upd (upd (pre0 (cnot_act q r) e) q a) r b) = psi (upd (upd e q a) r b)).
    { intros a b. apply D. intros x _. unfold upd, pre0. rewrite W. destruct (eqb x q), (eqb x r); auto. }
    rewrite !P. rewrite !upd_eq. rewrite !(@upd_neq _ r _ q) by auto. rewrite !upd_eq.
    pose proof (B q I) as Bq. pose proof (B r J) as Br.
    assert (Z : forall b, psi (upd (upd e q (e q)) r b) = psi (upd e r b)).
    { intros b. apply D. intros x _. unfold upd. destruct (eqb x r); auto. destruct (eqb_spec x q); congruence. }
    assert (F2 : forall a b, (b < 2 -> flip a b < 2)%nat) by (intros a b; unfold flip; destruct (Nat.eqb a 0); lia).
    set (f := flip (e q) (e r)). assert (Bf : (f < 2)%nat) by (apply F2; auto).
    rewrite !cnot_amp by (auto; lia). fold f. rewrite <- Z.
    destruct (e q) as [|[|]] eqn:Eq; try lia; destruct f as [|[|]]; try lia; cbn [Nat.eqb andb kdelta]; ring.
  Qed.

  Lemma keep_zero r k e : (k < n)%nat -> bitty e -> evolve Q (zero_act (qubit k)) (part_state r k) e = part_state r k e.
  Proof.
    intros L B. rewrite zero_step; auto; [|apply in_Q; auto|apply part_depends]. unfold part_state.
    destruct (Nat.eqb_spec (e (qubit k)) 0) as [E|E]; cbn [kdelta].
    - rewrite (@same_ext k _ e); [ring|]. intros q _. unfold upd. destruct (eqb_spec q (qubit k)); congruence.
    - destruct (same k e) eqn:H; [|cbn [kdelta]; ring]. rewrite same_true in H. specialize (H k L). rewrite Nat.ltb_irrefl in H. contradiction.
  Qed.
  Lemma spread r k e : (1 <= k < n)%nat -> bitty e -> evolve Q (cnot_act (qubit 0) (qubit k)) (part_state r k) e = part_state r (Datatypes.S k) e.
  Proof.
    intros L B. assert (N : qubit 0 <> qubit k) by (intros E; apply qubit_inj in E; lia).
    rewrite cnot_step; auto; [|apply in_Q; lia|apply in_Q; lia|apply part_depends]. unfold part_state. do 2 f_equal.
    apply eq_true_iff_eq. rewrite !same_true. rewrite (@upd_neq _ (qubit k) _ (qubit 0)) by auto.
    assert (Bk : (e (qubit k) < 2)%nat) by (apply B, in_Q; lia). assert (B0 : (e (qubit 0) < 2)%nat) by (apply B, in_Q; lia).
    assert (Fl : flip (e (qubit 0)) (e (qubit k)) = 0%nat <-> e (qubit k) = e (qubit 0)).
    { unfold flip. destruct (Nat.eqb_spec (e (qubit 0)) 0); lia. }
    assert (Nj : forall j, (j <> k)%nat -> upd e (qubit k) (flip (e (qubit 0)) (e (qubit k))) (qubit j) = e (qubit j)).
    { intros j Nj. apply upd_neq. intros E. apply qubit_inj in E. contradiction. }
    split; intros H j I; specialize (H j I); destruct (Nat.eq_dec j k) as [->|Ne].
    - rewrite upd_eq, Nat.ltb_irrefl in H. apply Fl in H. replace (k <? Datatypes.S k)%nat with true by (symmetry; apply Nat.ltb_lt; lia). exact H.
    - rewrite Nj in H by auto. replace (j <? Datatypes.S k)%nat with (j <? k)%nat; auto.
      destruct (Nat.ltb_spec j k), (Nat.ltb_spec j (Datatypes.S k)); auto; lia.
    - rewrite upd_eq, Nat.ltb_irrefl. apply Fl. replace (k <? Datatypes.S k)%nat with true in H by (symmetry; apply Nat.ltb_lt; lia). exact H.
    - rewrite Nj by auto. replace (j <? Datatypes.S k)%nat with (j <? k)%nat in H; auto.
      destruct (Nat.ltb_spec j k), (Nat.ltb_spec j (Datatypes.S k)); auto; lia.
  Qed.
  Lemma run_fans r : forall m k psi, (1 <= k)%nat -> (k + m <= n)%nat -> (forall e, bitty e -> psi e = part_state r k e) ->
    forall e, bitty e -> run Q (flat_map fan_acts (seq k m)) psi e = part_state r (k + m) e.
  Proof.
    induction m as [|m IH]; intros k psi L1 L2 H e B.
    - cbn [seq flat_map run fold_left]. rewrite Nat.add_0_r. auto.
    - cbn [seq flat_map fan_acts app]. cbn [run fold_left]. rewrite <- Nat.add_succ_comm. apply IH; [lia|lia| |exact B].
      intros x Bx. rewrite <- spread by (auto; lia). apply CircOrder.evolve_ext; [apply range_NoDup|]. intros y By.
      rewrite <- keep_zero by (auto; lia). apply CircOrder.evolve_ext; [apply range_NoDup|]. exact H.
  Qed.
  Lemma ghz_run e : bitty e -> run Q (map (@gate_act CK) (ghz_list n)) (basis Q env0) e = part_state (cr (/ sqrt 2)) n e.
  Proof.
    intros B. rewrite acts_ghz. cbn [run fold_left]. transitivity (part_state (cr (/ sqrt 2)) (1 + (n - 1)) e); [|f_equal; lia]. apply run_fans; [lia|lia| |exact B].
    assert (H0 : forall x, bitty x -> evolve Q (zero_act (qubit 0)) (basis Q env0) x = part_state 1 0 x).
    { intros x Bx. rewrite <- keep_zero by (auto; lia). apply CircOrder.evolve_ext; [apply range_NoDup|]. intros y By. unfold part_state, basis.
      replace (forallb (fun q => Nat.eqb (y q) (env0 q)) Q) with (same 0 y); [ring|]. apply eq_true_iff_eq. rewrite same_true, forallb_forall. split.
      - intros H q I. unfold range_names in I. apply in_map_iff in I as (j & <- & I). apply in_seq in I. apply Nat.eqb_eq. apply (H j). lia.
      - intros H j I. apply Nat.eqb_eq. apply (H (qubit j)). apply in_Q; auto. }
    intros x Bx. rewrite (@CircOrder.evolve_ext CK Q (h_act (qubit 0)) _ (part_state 1 0) x (range_NoDup n) H0).
    rewrite h_step; auto; [|apply in_Q; lia|apply part_depends]. rewrite h_amp by (apply Bx, in_Q; lia). unfold part_state.
    assert (N1 : same 0 (upd x (qubit 0) 1%nat) = false).
    { apply not_true_is_false. rewrite same_true. intros H. specialize (H 0%nat ltac:(lia)). rewrite upd_eq in H. discriminate. }
    rewrite N1. cbn [kdelta]. replace (same 0 (upd x (qubit 0) 0%nat)) with (same 1 x); [ring|].
    apply eq_true_iff_eq. rewrite !same_true. split; intros H j I; specialize (H j I); destruct j as [|j].
    - rewrite upd_eq. reflexivity.
    - rewrite upd_neq by (intros E; apply qubit_inj in E; lia). exact H.
    - reflexivity.
    - rewrite upd_neq in H by (intros E; apply qubit_inj in E; lia). exact H.
  Qed.
End State.

Definition all_same (o : list nat) : bool := forallb (fun b => Nat.eqb b 0) o || forallb (fun b => Nat.eqb b 1) o.
Lemma io_out k : ends_out (LO :: io k) = true.
Proof.
  unfold ends_out. assert (H : forall k, last (LO :: io k) LI = LO).
  { clear k. induction k as [|k IH]; [reflexivity|]. exact IH. }
  rewrite H. reflexivity.
Qed.
Lemma filter_empty {A} (f : A -> bool) l : (forall x, In x l -> f x = false) -> filter f l = [].
Proof. induction l as [|x l IH]; intros H; auto. simpl. rewrite H by (simpl; auto). apply IH. intros; apply H; simpl; auto. Qed.
Lemma ghz_in Q n : wires_in Q (map (@gate_act CK) (ghz_list n)) = [].
Proof.
  unfold wires_in. apply filter_empty. intros q _. rewrite ghz_hist. destruct (eqb q (qubit 0)); [reflexivity|]. destruct (existsb _ _); reflexivity.
Qed.
Lemma ghz_out n : 1 <= n -> wires_out (range_names n) (map (@gate_act CK) (ghz_list n)) = range_names n.
Proof.
  intros P. unfold wires_out. apply CircWhen.filter_all. intros q I. rewrite ghz_hist. unfold range_names in I. apply in_map_iff in I as (j & <- & I). apply in_seq in I.
  fold (qubit j). destruct (eqb_spec (qubit j) (qubit 0)) as [_|N]; [apply io_out|].
  replace (existsb _ _) with true; [reflexivity|]. symmetry. apply existsb_exists. exists j. split; [|apply eqb_refl].
  apply in_seq. destruct j; [congruence|lia].
Qed.
Lemma same_place n o : 1 <= n -> bits n o -> same n n (place (range_names n) o) = all_same o.
Proof.
  intros P [L B]. assert (M : map (place (range_names n) o) (range_names n) = o).
  { apply upds_map; [apply range_NoDup|]. rewrite range_length. auto. }
  set (e := place (range_names n) o) in *. assert (M' : map (fun j => e (qubit j)) (seq 0 n) = o) by (transitivity (map e (range_names n)); [unfold range_names; rewrite map_map; reflexivity|exact M]).
  apply eq_true_iff_eq. rewrite same_true by auto. unfold all_same. rewrite orb_true_iff, !forallb_forall, <- M'. clear M M'.
  assert (B0 : (e (qubit 0) < 2)%nat).
  { apply upds_bit; [unfold env0; lia|]. auto. }
  split.
  - intros H. destruct (e (qubit 0)) as [|[|]] eqn:E0; [left|right|lia]; intros b I; apply in_map_iff in I as (j & <- & I); apply in_seq in I; rewrite H by lia;
      (replace (j <? n) with true by (symmetry; apply Nat.ltb_lt; lia)); reflexivity.
  - intros H j I. replace (j <? n) with true by (symmetry; apply Nat.ltb_lt; lia).
    destruct H as [H|H].
    + assert (Hj := H (e (qubit j))). assert (H0 := H (e (qubit 0))). rewrite Nat.eqb_eq in Hj, H0. rewrite Hj, H0; auto; apply in_map_iff.
      * exists 0. split; auto. apply in_seq. lia.
      * exists j. split; auto. apply in_seq. lia.
    + assert (Hj := H (e (qubit j))). assert (H0 := H (e (qubit 0))). rewrite Nat.eqb_eq in Hj, H0. rewrite Hj, H0; auto; apply in_map_iff.
      * exists 0. split; auto. apply in_seq. lia.
      * exists j. split; auto. apply in_seq. lia.
Qed.

Lemma ghz_amp n o : 1 <= n -> bits n o ->
  op_amp (OCirc (stacked_after 0 (ghz_list n))) o [] = if all_same o then cr (/ sqrt 2) else cr 0.
Proof.
  intros P B. destruct (ghz_shape n) as [W E]. assert (G : gates_ok (stacked_after 0 (ghz_list n))) by (apply gates_stacked, gates_ghz).
  destruct (@stacked_circ CK 0 (ghz_list n) (max n 1)) as (_ & Rg & _).
  - intros k g I. eapply wf_ghz_op; eauto.
  - apply gates_ghz.
  - intros q. apply ghz_used.
  - apply ghz_alt.
  - replace (max n 1) with n in * by lia.
    destruct (circ_known G E (stacked_order 0 (ghz_list n)) Rg) as (_ & _ & _ & _ & _ & _ & Co & Am).
    rewrite Am; rewrite stacked_gate_acts in *.
    + unfold amplitude. rewrite ghz_in, ghz_out by auto. unfold place at 1. cbn [upds].
      rewrite ghz_run; auto. 2: { intros q I. apply upds_bit; [unfold env0; lia|]. apply B. }
      unfold part_state. rewrite same_place by auto. destruct (all_same o); cbn [kdelta]; ck; ring.
    + rewrite Co, ghz_out, range_length; auto.
Qed.
