(** * C41: noise channels; C47: circuits preserve the trace; C48: circuits of Kraus operators

    [has_channel x n m ch]: the density tensor that the package computes for x has bonds of dimension 2 (outputs and inputs of the
    ket side, then of the bra side) and the entries of ch; [kraus], [trace_preserving] and [preserves_trace] are in [NoiseSpec]. *)
From Coq Require Import Reals Lra.
From Verif Require Import Base Scalar NetSpec Sums NetAlg ModelArray ModelTN ModelVal ModelOps OpsSpec OpsValue ModelContract CircSpec CircOrder ModelCircuit CircSem
  CircShape CircCtrl CircOp CircMain CircBuild CircAdj CircUse CircMul DensSpec CircDens CircDensOp CircPure MatSpec MatProofs ExprSpec CircExpr Complex GateSpec ModelGates GateProofs
  NoiseSpec ChanTrace ChanCirc Props_Gates.
Set Implicit Arguments.
Local Open Scope K_scope.
Add Ring CKring_noise : (kring CK).

Lemma chan_has S (x : op S) n m sh ch : op_wf x -> no_super x -> op_shape x = Ok sh -> count role_out sh = n -> count role_in sh = m ->
  (forall o i o' i', bits n o -> bits m i -> bits n o' -> bits m i' -> op_dens x o i o' i' = ch o i o' i') -> has_channel x n m ch.
Proof.
  intros W N E <- <- H. destruct (dens_ok W N E) as (v & Ev & _ & Sv & V). exists v. split; auto. split; auto.
  intros. unfold entries_of. rewrite V; auto.
Qed.
Lemma has_preserves S (x : op S) sh ch : op_shape x = Ok sh -> has_channel x (count role_out sh) (count role_in sh) ch ->
  trace_preserving (count role_out sh) (count role_in sh) ch -> preserves_trace x.
Proof.
  intros E (v & Ev & Sv & V) T. exists sh, v. split; auto. split; auto. apply unital_preserving. eapply unital_ext; [|apply preserving_unital; exact T].
  intros. symmetry; auto.
Qed.

(** ** C41 *)
Lemma channel_wf l : op_wf (Channel 1 (qarr 4 l)).
Proof. constructor; [apply complete_tensor|reflexivity|reflexivity]. Qed.
Ltac chan_tac := eapply chan_has; [apply channel_wf|constructor|reflexivity|reflexivity|reflexivity|];
  intros o i o' i' Bo Bi Bo' Bi'; bit_cases; eval_entry.
(** Depolarization(px, py, pz) applies X, Y, Z with these probabilities, and nothing with the remaining one. *)
Theorem C41_depolarization px py pz : (0 <= px -> 0 <= py -> 0 <= pz -> px + py + pz <= 1 ->
  has_channel (Depolarization px (Some py) (Some pz)) 1 1
    (kraus [mscale (cr (sqrt (1 - px - py - pz))) mone; mscale (cr (sqrt px)) pauli_x; mscale (cr (sqrt py)) pauli_y; mscale (cr (sqrt pz)) pauli_z]))%R.
Proof.
  intros Hx Hy Hz H.
  assert (E0 := sqrt_sqrt (1 - px - py - pz) ltac:(lra)). assert (E1 := sqrt_sqrt px Hx). assert (E2 := sqrt_sqrt py Hy). assert (E3 := sqrt_sqrt pz Hz).
  revert E0 E1 E2 E3. generalize (sqrt (1 - px - py - pz)), (sqrt px), (sqrt py), (sqrt pz). intros d a b c E0 E1 E2 E3.
  chan_tac. all: ck. all: nra.
Qed.
Print Assumptions C41_depolarization.
(** The parameters that are left out are equal to px. *)
Theorem C41_depolarization_default p : (0 <= p -> 3 * p <= 1 ->
  has_channel (Depolarization p None None) 1 1
    (kraus [mscale (cr (sqrt (1 - 3 * p))) mone; mscale (cr (sqrt p)) pauli_x; mscale (cr (sqrt p)) pauli_y; mscale (cr (sqrt p)) pauli_z]))%R.
Proof.
  intros H0 H1. replace (1 - 3 * p)%R with (1 - p - p - p)%R by ring. apply (C41_depolarization H0 H0 H0). lra.
Qed.
Print Assumptions C41_depolarization_default.
Example C41_depolarization_somewhere : (0 <= 1 / 10 /\ 0 <= 1 / 5 /\ 0 <= 3 / 10 /\ 1 / 10 + 1 / 5 + 3 / 10 <= 1)%R.
Proof. lra. Qed.

Theorem C41_dephasing p : (0 <= p <= 1)%R ->
  has_channel (Dephasing p) 1 1 (kraus [mscale (cr (sqrt (1 - p))) mone; mscale (cr (sqrt p)) pauli_z]).
Proof.
  intros [H0 H1]. assert (E0 := sqrt_sqrt (1 - p) ltac:(lra)). assert (E1 := sqrt_sqrt p H0).
  revert E0 E1. generalize (sqrt (1 - p)), (sqrt p). intros d a E0 E1. unfold Dephasing, Depolarization. chan_tac. all: ck. all: nra.
Qed.
Print Assumptions C41_dephasing.

(** AmplitudeDampling(p) decays 1 to 0 with probability p. *)
Theorem C41_amplitude_damping p : (0 <= p <= 1)%R ->
  has_channel (AmplitudeDampling p) 1 1 (kraus [m22 1 0 0 (cr (sqrt (1 - p))); m22 0 (cr (sqrt p)) 0 0]).
Proof.
  intros [H0 H1]. assert (E0 := sqrt_sqrt (1 - p) ltac:(lra)). assert (E1 := sqrt_sqrt p H0). unfold AmplitudeDampling.
  revert E0 E1. generalize (sqrt (1 - p)), (sqrt p). intros d a E0 E1. chan_tac. all: ck. all: nra.
Qed.
Print Assumptions C41_amplitude_damping.
Example C41_probability_somewhere : (0 <= 1 / 3 <= 1)%R. Proof. lra. Qed.

(** All of them preserve the trace, whatever the parameters. *)
Lemma channel_preserves l : unital 1 1 (op_dens (Channel 1 (qarr 4 l))) -> preserves_trace (Channel 1 (qarr 4 l)).
Proof.
  intros U. apply (@has_preserves _ _ [RW [LI; LO]] (op_dens (Channel 1 (qarr 4 l)))); [reflexivity| |apply unital_preserving; exact U].
  eapply chan_has; [apply channel_wf|constructor|reflexivity|reflexivity|reflexivity|auto].
Qed.
Theorem C41_trace :
  (forall px py pz, preserves_trace (Depolarization px py pz)) /\ (forall p, preserves_trace (Dephasing p)) /\
  (forall p, preserves_trace (AmplitudeDampling p)).
Proof.
  split; [|split]; intros.
  - unfold Depolarization. apply channel_preserves. intros i i' Bi Bi'. destruct py, pz; bit_cases; eval_entry; ck; ring.
  - unfold Dephasing, Depolarization. apply channel_preserves. intros i i' Bi Bi'. bit_cases; eval_entry; ck; ring.
  - unfold AmplitudeDampling. apply channel_preserves. intros i i' Bi Bi'. bit_cases; eval_entry; ck; ring.
Qed.
Print Assumptions C41_trace.

(** The non-destructive measurement in the computational basis is complete dephasing; TraceOp is the trace. *)
Theorem C41_measurement :
  has_channel NDCompMeas 1 1 (kraus [m22 1 0 0 0; m22 0 0 0 1]) /\
  has_channel (Dephasing (1 / 2)) 1 1 (kraus [m22 1 0 0 0; m22 0 0 0 1]) /\
  has_channel TraceOp 0 1 (fun _ i _ i' => kdelta (eqb i i')) /\
  preserves_trace NDCompMeas /\ preserves_trace TraceOp.
Proof.
  assert (Wn : op_wf NDCompMeas) by wf_open. assert (Wt : op_wf TraceOp) by wf_open.
  assert (H1 : has_channel NDCompMeas 1 1 (kraus [m22 1 0 0 0; m22 0 0 0 1])).
  { eapply chan_has; [exact Wn|constructor|reflexivity|reflexivity|reflexivity|]. intros o i o' i' Bo Bi Bo' Bi'; bit_cases; eval_entry; ck; ring. }
  assert (H3 : has_channel TraceOp 0 1 (fun _ i _ i' => kdelta (eqb i i'))).
  { eapply chan_has; [exact Wt|constructor|reflexivity|reflexivity|reflexivity|]. intros o i o' i' Bo Bi Bo' Bi'; bit_cases; eval_entry; ck; ring. }
  split; auto. split; [|split; auto; split].
  - unfold Dephasing, Depolarization. chan_tac; ck; field.
  - eapply (@has_preserves _ _ [RW [LI; LO]]); [reflexivity|exact H1|]. apply unital_preserving. intros i i' Bi Bi'. bit_cases; eval_entry; ck; ring.
  - eapply (@has_preserves _ _ [RW [LI]]); [reflexivity|exact H3|]. apply unital_preserving. intros i i' Bi Bi'. bit_cases; eval_entry; ck; ring.
Qed.
Print Assumptions C41_measurement.

(** ** C41: operations given by Kraus operators *)

(** the matrix with the given numbers, row by row: the row number is the output bits, the column number the input bits *)
Definition number (l : list nat) : nat := fold_left (fun a b => 2 * a + b)%nat l 0%nat.
Definition by_rows (d : list R) : mat CK := fun o i => cr (nth (number o * 2 ^ length i + number i)%nat d 0%R).
Definition real_matrix (n m : nat) (a : array) (d : list R) : Prop :=
  a = RealArray (repeat 2%nat (n + m)) d \/ a = RealArray [2 ^ n; 2 ^ m]%nat d.

Lemma flat_number l : forall acc, flat_index acc l = (acc * 2 ^ length l + number l)%nat.
Proof.
  unfold number.
  assert (H : forall l a, fold_left (fun a b => 2 * a + b)%nat l a = (a * 2 ^ length l + fold_left (fun a b => 2 * a + b)%nat l 0)%nat).
  { clear. induction l as [|b l IH]; intros a; cbn [fold_left length]; [simpl; lia|].
    rewrite IH, (IH (2 * 0 + b)%nat). rewrite Nat.pow_succ_r'. lia. }
  induction l as [|b l IH]; intros acc; cbn [flat_index]; [cbn [length fold_left]; simpl; lia|]. rewrite IH. cbn [length fold_left].
  rewrite (H l (2 * 0 + b)%nat), Nat.pow_succ_r'. lia.
Qed.
Lemma number_app o i : number (o ++ i) = (number o * 2 ^ length i + number i)%nat.
Proof.
  rewrite <- (flat_number i (number o)). unfold number at 1. rewrite fold_left_app. fold (number o).
  generalize (number o). clear. induction i as [|b i IH]; intros a; cbn [flat_index fold_left]; auto.
Qed.
Lemma kraus_sum_ok lin lout l ds : Forall2 (real_matrix lout lin) l ds -> forall acc, exists f, kraus_sum lin lout l acc = Ok f /\
  forall o i o' i', length o = lout -> length i = lin -> f ((o ++ i) ++ (o' ++ i')) = acc ((o ++ i) ++ (o' ++ i')) + kraus (map by_rows ds) o i o' i'.
Proof.
  induction 1 as [|a d l ds Ha F IH]; intros acc.
  - exists acc. split; auto. intros. unfold kraus. cbn [map sumf]. ring.
  - cbn [kraus_sum].
    assert (E : negb (eqb (ar_shape a) (repeat 2 (lin + lout))) && negb (eqb (ar_shape a) [2 ^ lout; 2 ^ lin]) = false).
    { destruct Ha as [-> | ->]; simpl; rewrite ?(Nat.add_comm lout), eqb_refl; simpl; auto. rewrite andb_false_r; auto. }
    rewrite E. clear E.
    set (at_ := fun x => cr (nth (flat_index 0 x) d 0%R)).
    destruct (IH (fun x => acc x + at_ (firstn (lin + lout) x) * kconj (at_ (skipn (lin + lout) x)))) as (f & Ef & Vf). exists f. split.
    + destruct Ha as [-> | ->]; exact Ef.
    + intros o i o' i' Lo Li. rewrite Vf by auto.
      rewrite firstn_app_len, skipn_app_len by (rewrite app_length; lia). unfold kraus. cbn [map sumf].
      assert (Ea : forall o i, at_ (o ++ i) = by_rows d o i) by (intros; unfold at_, by_rows; rewrite flat_number, number_app; auto).
      rewrite !Ea. ring.
Qed.
Lemma from_kraus_ok sh ks ds : ~ In RC sh -> ~ In (RW []) sh -> Forall2 (real_matrix (count role_out sh) (count role_in sh)) ks ds ->
  exists x, operation_from_kraus sh ks = Ok x /\ op_shape x = Ok sh /\ op_wf x /\ no_super x /\
    has_channel x (count role_out sh) (count role_in sh) (kraus (map by_rows ds)).
Proof.
  intros Nc Ne F. unfold operation_from_kraus.
  assert (Ee : existsb (fun r => match r with RW [] => true | _ => false end) sh = false).
  { destruct (existsb _ sh) eqn:E; auto. apply existsb_exists in E as (r & Ir & E). destruct r as [|[|]]; try discriminate. contradiction. }
  rewrite Ee.
  assert (Zc : count is_ctrl sh = 0%nat).
  { clear -Nc. induction sh as [|r sh IH]; auto. cbn [count filter]. destruct r; [exfalso; apply Nc; simpl; auto|]. simpl. apply IH. intros X; apply Nc; simpl; auto. }
  pose proof (count_out sh) as Co. pose proof (count_in sh) as Ci. rewrite Zc in Co, Ci. simpl in Co, Ci. rewrite <- Co, <- Ci.
  destruct (kraus_sum_ok F (fun _ => 0)) as (f & -> & V). cbn [bind].
  set (d := VTensor _). unfold mk_imm.
  assert (Sd : tval_shape d = twos (2 * (count is_in sh + count is_out sh))) .
  { rewrite <- Co, <- Ci. unfold d, twos. cbn [tval_shape nd_shape]. 
    generalize (2 * (count role_in sh + count role_out sh))%nat. clear. intros k. simpl. f_equal. induction k; simpl; f_equal; auto. }
  assert (Si : shape_is d (2 * (count is_in sh + count is_out sh)) = true) by (unfold shape_is; rewrite Sd; apply eqb_refl).
  assert (W : op_wf (OImm sh d)) by (constructor; auto; apply complete_tensor).
  rewrite Si. exists (OImm sh d). split; auto. split; auto. split; auto. split; [constructor|].
  eapply chan_has; [exact W|constructor|reflexivity|reflexivity|reflexivity|].
  intros o i o' i' Bo Bi Bo' Bi'. cbn [op_dens]. replace (o ++ i ++ o' ++ i') with ((o ++ i) ++ (o' ++ i')) by (rewrite <- app_assoc; reflexivity).
  unfold d. cbn [tval_value nd_at]. rewrite V; [ring|apply Bo|apply Bi].
Qed.
(** operation_from_kraus returns the sum of K(o,i) times the conjugate of K(o',i') over the operators K, for every shape without
    controls and every family of real matrices, given as matrices or with one bond per qubit. *)
Theorem C41_from_kraus sh ks ds : ~ In RC sh -> ~ In (RW []) sh -> Forall2 (real_matrix (count role_out sh) (count role_in sh)) ks ds ->
  exists x, operation_from_kraus sh ks = Ok x /\ op_shape x = Ok sh /\
    has_channel x (count role_out sh) (count role_in sh) (kraus (map by_rows ds)).
Proof. intros N1 N2 F. destruct (@from_kraus_ok sh ks ds N1 N2 F) as (x & E & Es & _ & _ & H). exists x. auto. Qed.
Print Assumptions C41_from_kraus.
Example C41_from_kraus_somewhere : let sh := [RW [LI; LO]; RW [LO]] in
  ~ In RC sh /\ ~ In (RW []) sh /\
  Forall2 (real_matrix (count role_out sh) (count role_in sh))
    [RealArray [4; 2]%nat [1; 0; 0; 0; 0; 0; 0; 1]%R; RealArray [2; 2; 2]%nat [0; 0; 1; 0; 0; 1; 0; 0]%R]
    [[1; 0; 0; 0; 0; 0; 0; 1]%R; [0; 0; 1; 0; 0; 1; 0; 0]%R].
Proof.
  split; [simpl; intuition discriminate|]. split; [simpl; intuition discriminate|].
  constructor; [right; reflexivity|]. constructor; [left; reflexivity|constructor].
Qed.

(** A family preserves the trace when the sum of K* K is the identity, and only then. *)
Theorem C41_kraus_trace (S : scalar) n m (Ks : list (mat S)) :
  trace_preserving n m (kraus Ks) <->
  (forall i i', bits m i -> bits m i' -> sumf (fun K => sumf (fun o => madj K i o * K o i') (words2 n)) Ks = mone i i').
Proof.
  assert (E : forall i i', sumf (fun K => sumf (fun o => madj K i o * K o i') (words2 n)) Ks = sumf (fun o => kraus Ks o i' o i) (words2 n)).
  { intros. unfold kraus. rewrite sumf_swap. apply sumf_ext. intros K _. apply sumf_ext. intros o _. unfold madj. apply kmul_comm. }
  split.
  - intros T i i' Bi Bi'. rewrite E. unfold mone. rewrite eqb_sym. apply (preserving_unital T); auto.
  - intros H. apply unital_preserving. intros i i' Bi Bi'. rewrite <- E, H by auto. unfold mone. rewrite eqb_sym. auto.
Qed.
Print Assumptions C41_kraus_trace.

(** With a complex Kraus operator the call fails, even if the operator is unitary: the sum is accumulated in an array of reals. *)
Theorem C41_complex_refuted :
  exists a, operation_from_kraus [RW [LI; LO]] [a] = Err TypeError /\
    a = ComplexArray [2; 2]%nat (map (fun p => pauli_y [fst p] [snd p]) [(0, 0); (0, 1); (1, 0); (1, 1)]%nat) /\ munitary 1 pauli_y.
Proof. eexists. split; [|split; [reflexivity|apply involution_unitary; apply y_inv]]. reflexivity. Qed.
Print Assumptions C41_complex_refuted.

(** ** C47: circuits preserve the trace *)

(** A circuit all of whose operations preserve the trace preserves it. *)
Theorem C47_trace (S : scalar) (c : circ (op S)) sh : op_wf (OCirc c) -> no_super (OCirc c) -> op_shape (OCirc c) = Ok sh ->
  (forall k g, In (k, g) c -> preserves_trace (g_op g)) -> preserves_trace (OCirc c).
Proof. apply circ_preserves. Qed.
Print Assumptions C47_trace.

(** A pure operation preserves the trace when its tensor A is an isometry: A* A = 1. *)
Lemma pure_preserves (S : scalar) (x : op S) sh v : op_wf x -> no_super x -> op_pure x = Ok true -> op_shape x = Ok sh -> tensor_pure x = Ok v ->
  let n := count role_out sh in let m := count role_in sh in
  has_channel x n m (kraus [fun o i => tval_value v (o ++ i)]).
Proof.
  intros W N P E Ev n m. destruct (conv_ok W) as [Hp _]. destruct (Hp P) as (s & Es & v' & Ev' & _ & Sv & V).
  rewrite E in Es. injection Es as <-. change (tensor_pure x = Ok v') in Ev'. rewrite Ev in Ev'. injection Ev' as <-.
  eapply chan_has; eauto. intros o i o' i' Bo Bi Bo' Bi'. rewrite (dens_pure W N P E) by auto. unfold kraus. cbn [sumf].
  rewrite !V by auto. pose proof (kring S) as K. symmetry. apply kadd_0_r.
Qed.
Theorem C47_pure (S : scalar) (x : op S) sh v : op_wf x -> no_super x -> op_pure x = Ok true -> op_shape x = Ok sh -> tensor_pure x = Ok v ->
  let n := count role_out sh in let m := count role_in sh in
  preserves_trace x <->
  (forall i i', bits m i -> bits m i' -> sumf (fun o => kmul (kconj (tval_value v (o ++ i))) (tval_value v (o ++ i'))) (words2 n) = mone i i').
Proof.
  intros W N P E Ev n m. pose proof (pure_preserves W N P E Ev) as H. cbn zeta in H. fold n m in H.
  assert (X : trace_preserving n m (kraus [fun o i => tval_value v (o ++ i)]) <->
    (forall i i', bits m i -> bits m i' -> sumf (fun o => kmul (kconj (tval_value v (o ++ i))) (tval_value v (o ++ i'))) (words2 n) = mone i i')).
  { rewrite C41_kraus_trace. cbn [sumf]. unfold madj. split; intros Y i i' Bi Bi'; specialize (Y i i' Bi Bi'); rewrite kadd_0_r in *; auto. }
  rewrite <- X. split; intros Y.
  - destruct Y as (s & w & Es & Ew & T). rewrite E in Es. injection Es as <-. destruct H as (w' & Ew' & _ & V). rewrite Ew in Ew'. injection Ew' as <-.
    apply unital_preserving. eapply unital_ext; [exact V|]. apply preserving_unital; auto.
  - eapply has_preserves; eauto.
Qed.
Print Assumptions C47_pure.

(** ** C48: the density tensors of circuits are those of quantum mechanics *)

(** A circuit of operations with Kraus operators has Kraus operators. *)
Theorem C48_kraus (S : scalar) (c : circ (op S)) sh : op_wf (OCirc c) -> no_super (OCirc c) -> op_shape (OCirc c) = Ok sh ->
  (forall k g, In (k, g) c -> exists Ks, has_kraus (g_op g) Ks) -> exists Ks, has_kraus (OCirc c) Ks.
Proof. apply circ_kraus. Qed.
Print Assumptions C48_kraus.

(** the unitary gates, states and channels of the package, and circuits of them *)
Inductive physical : op CK -> Prop :=
| ph_gate x n : named x n -> no_super x -> physical x
| ph_state b : physical (OState b)
| ph_plus : physical PlusState
| ph_minus : physical MinusState
| ph_depolarization px py pz : (0 <= px /\ 0 <= py /\ 0 <= pz /\ px + py + pz <= 1)%R -> physical (Depolarization px (Some py) (Some pz))
| ph_dephasing p : (0 <= p <= 1)%R -> physical (Dephasing p)
| ph_damping p : (0 <= p <= 1)%R -> physical (AmplitudeDampling p)
| ph_measure : physical NDCompMeas
| ph_discard : physical TraceOp
| ph_kraus sh ks ds x : ~ In RC sh -> ~ In (RW []) sh -> Forall2 (real_matrix (count role_out sh) (count role_in sh)) ks ds ->
    trace_preserving (count role_out sh) (count role_in sh) (kraus (map by_rows ds)) -> operation_from_kraus sh ks = Ok x -> physical x
| ph_circuit c sh : NoDup (keys c) ->
    (forall k g, In (k, g) c -> NoDup (g_qubits g) /\ op_len (g_op g) = Ok (length (g_qubits g))) ->
    (forall k g, In (k, g) c -> physical (g_op g)) ->
    op_shape (OCirc c) = Ok sh -> physical (OCirc c).

Lemma kraus_ok (x : op CK) sh Ks : op_wf x -> no_super x -> op_shape x = Ok sh -> has_channel x (count role_out sh) (count role_in sh) (kraus Ks) ->
  preserves_trace x -> op_wf x /\ no_super x /\ preserves_trace x /\ exists Ks, has_kraus x Ks.
Proof. intros W N E H T. split; auto. split; auto. split; auto. exists Ks, sh. auto. Qed.
Lemma kraus_of (x : op CK) sh : op_wf x -> no_super x -> op_pure x = Ok true -> op_shape x = Ok sh ->
  exists v, tensor_pure x = Ok v /\ has_channel x (count role_out sh) (count role_in sh) (kraus [fun o i => tval_value v (o ++ i)]).
Proof.
  intros W N P E. destruct (conv_ok W) as [Hp _]. destruct (Hp P) as (s & Es & v & Ev & _). exists v. split; auto. apply pure_preserves; auto.
Qed.
Lemma state_ok (x : op CK) f : op_wf x -> no_super x -> op_pure x = Ok true -> op_shape x = Ok [RW [LO]] -> has_vector x 1 f ->
  f [0%nat] * kconj (f [0%nat]) + f [1%nat] * kconj (f [1%nat]) = 1 ->
  op_wf x /\ no_super x /\ preserves_trace x /\ exists Ks, has_kraus x Ks.
Proof.
  intros W N P E (v & Ev & _ & V) F. destruct (kraus_of W N P E) as (v' & Ev' & H). rewrite Ev in Ev'. injection Ev' as <-.
  eapply kraus_ok; eauto. apply (C47_pure W N P E Ev). intros i i' Bi Bi'. change (count role_in [RW [LO]]) with 0%nat in *. bit_cases.
  change (words2 (count role_out [RW [LO]])) with [[0%nat]; [1%nat]]. cbn [sumf app]. rewrite !V by (split; auto; repeat constructor).
  change (mone (S := CK) [] []) with (k1 : CK). rewrite <- F. ring.
Qed.
Lemma physical_ok x : physical x -> op_wf x /\ no_super x /\ preserves_trace x /\ exists Ks, has_kraus x Ks.
Proof.
  induction 1 as [x n H N|b| | |px py pz (H1 & H2 & H3 & H4)|p H|p H| | |sh ks ds x N1 N2 F T Ex|c sh Nk G IHp IH Es].
  - destruct (named_ok H) as ((W & P & Nc & sh & Es & L & U) & _ & A & (v & Ev & Sv & V) & [U1 _]).
    destruct (kraus_of W N P Es) as (v' & Ev' & Hk). rewrite Ev in Ev'. injection Ev' as <-. eapply kraus_ok; eauto.
    apply (C47_pure W N P Es Ev).
    assert (Co : count role_out sh = n) by (rewrite <- L; apply unitary_all; auto using unitary_out).
    assert (Ci : count role_in sh = n) by (rewrite <- L; apply unitary_all; auto using unitary_in).
    rewrite Co, Ci. intros i i' Bi Bi'. rewrite <- U1 by auto. unfold mmul, madj. apply sumf_ext. intros o Io. apply in_words in Io.
    rewrite !V; auto.
  - destruct C42_states as (S0 & S1 & _). destruct b; (eapply state_ok; [apply wf_state|apply ns_state|reflexivity|reflexivity|first [exact S0|exact S1]|]); unfold basis_vector; eval_entry; ck; ring.
  - destruct C42_states as (_ & _ & _ & _ & S0 & S1 & _).
    eapply state_ok; [constructor; [apply complete_tensor|..]; reflexivity|apply ns_pure|reflexivity|reflexivity|exact S0|].
    assert (X : (/ sqrt 2 * / sqrt 2 = / 2)%R) by (rewrite <- Rinv_mult, sqrt_sqrt by lra; auto).
    unfold diagonal_vector. revert X. generalize (/ sqrt 2)%R. intros r X. ck; nra.
  - destruct C42_states as (_ & _ & _ & _ & S0 & S1 & _).
    eapply state_ok; [constructor; [apply complete_tensor|..]; reflexivity|apply ns_pure|reflexivity|reflexivity|exact S1|].
    assert (X : (/ sqrt 2 * / sqrt 2 = / 2)%R) by (rewrite <- Rinv_mult, sqrt_sqrt by lra; auto).
    unfold diagonal_vector. revert X. generalize (/ sqrt 2)%R. intros r X. ck; nra.
  - eapply kraus_ok; [apply channel_wf|constructor|reflexivity|apply C41_depolarization; auto|apply C41_trace].
  - eapply kraus_ok; [apply channel_wf|constructor|reflexivity|apply C41_dephasing; auto|apply C41_trace].
  - eapply kraus_ok; [apply channel_wf|constructor|reflexivity|apply C41_amplitude_damping; auto|apply C41_trace].
  - destruct C41_measurement as (H & _ & _ & T & _). eapply kraus_ok; [wf_open|constructor|reflexivity|exact H|exact T].
  - destruct C41_measurement as (_ & _ & H & _ & T).
    eapply kraus_ok with (Ks := [fun _ i => kdelta (eqb i [0%nat]); fun _ i => kdelta (eqb i [1%nat])]); [wf_open|constructor|reflexivity| |exact T].
    destruct H as (v & Ev & Sv & V). exists v. split; auto. split; auto. intros o i o' i' Bo Bi Bo' Bi'. rewrite V by auto.
    change (count role_out [RW [LI]]) with 0%nat in *. change (count role_in [RW [LI]]) with 1%nat in *. bit_cases; eval_entry; ck; ring.
  - destruct (@from_kraus_ok sh ks ds N1 N2 F) as (y & Ey & Es & W & N & H). rewrite Ex in Ey. injection Ey as <-.
    eapply kraus_ok; eauto. eapply has_preserves; eauto.
  - assert (W : op_wf (OCirc c)) by (constructor; auto; intros k g I; apply (IH k g I)).
    assert (N : no_super (OCirc c)) by (constructor; intros k g I; apply (IH k g I)).
    split; auto. split; auto. split.
    + eapply C47_trace; eauto. intros k g I; apply (IH k g I).
    + eapply C48_kraus; eauto. intros k g I; apply (IH k g I).
Qed.

(** Every circuit of these operations preserves the trace and has Kraus operators. *)
Theorem C48_physical x : physical x -> preserves_trace x /\ exists Ks, has_kraus x Ks.
Proof. intros H. apply physical_ok in H. tauto. Qed.
Print Assumptions C48_physical.

(** So the tensor of such a circuit without inputs is a density matrix: Hermitian, positive, with trace 1; in particular its
    diagonal, the probabilities of the outcomes, is a probability distribution. *)
Definition real_nonneg (z : CK) : Prop := exists p, (0 <= p)%R /\ z = cr p.
Theorem C48_density_matrix x sh : physical x -> op_shape x = Ok sh -> count role_in sh = 0%nat ->
  exists v, tensor_density x = Ok v /\
    let n := count role_out sh in
    let rho := fun o o' => entries_of v o [] o' [] in
    meq n (madj rho) rho /\
    (forall w, real_nonneg (sumf (fun o => sumf (fun o' => kconj (w o) * rho o o' * w o') (words2 n)) (words2 n))) /\
    mtrace n rho = 1 /\
    (forall o, bits n o -> real_nonneg (rho o o)).
Proof.
  intros Ph E Z. destruct (C48_physical Ph) as ((s & v & Es & Ev & T) & Ks & s' & Es' & v' & Ev' & Sv & V).
  rewrite E in Es, Es'. injection Es as <-. injection Es' as <-. rewrite Ev in Ev'. injection Ev' as <-. rewrite Z in *.
  exists v. split; auto. set (n := count role_out sh) in *. cbn zeta.
  assert (B0 : bits 0 []) by (split; auto; constructor).
  assert (R : forall o o', bits n o -> bits n o' -> entries_of v o [] o' [] = sumf (fun K => K o [] * kconj (K o' [])) Ks) by (intros; apply V; auto).
  assert (Sq : forall z : CK, real_nonneg (z * kconj z)).
  { intros [a b]. exists (a * a + b * b)%R. split; [nra|]. ck; ring. }
  assert (Ad : forall {X} (f : X -> CK) l, (forall a, real_nonneg (f a)) -> real_nonneg (sumf f l)).
  { intros X f l H. induction l as [|a l IH]; [exists 0%R; split; [lra|reflexivity]|]. cbn [sumf]. destruct IH as (p & Hp & Ep), (H a) as (q & Hq & Eq).
    exists (q + p)%R. split; [lra|]. rewrite Ep, Eq. ck; ring. }
  split; [|split; [|split]].
  - intros o o' Bo Bo'. unfold madj. rewrite !R by auto. rewrite sumf_conj. apply sumf_ext. intros K _. rewrite kconj_mul, kconj_kconj_S. apply kmul_comm.
  - intros w.
    assert (X : sumf (fun o => sumf (fun o' => kconj (w o) * entries_of v o [] o' [] * w o') (words2 n)) (words2 n) =
      sumf (fun K : mat CK => sumf (fun o => kconj (w o) * K o []) (words2 n) * kconj (sumf (fun o => kconj (w o) * K o []) (words2 n))) Ks).
    { rewrite (sumf_ext _ (fun o => sumf (fun o' => sumf (fun K : mat CK => (kconj (w o) * K o []) * kconj (kconj (w o') * K o' [])) Ks) (words2 n))).
      2:{ intros o Io. apply sumf_ext. intros o' Io'. apply in_words in Io, Io'. rewrite R by auto. rewrite <- sumf_mul_l, <- sumf_mul_r.
          apply sumf_ext. intros K _. rewrite kconj_mul, kconj_kconj_S. ring. }
      rewrite (sumf_ext _ (fun o => sumf (fun K : mat CK => (kconj (w o) * K o []) * kconj (sumf (fun o' => kconj (w o') * K o' []) (words2 n))) Ks)).
      2:{ intros o _. rewrite sumf_swap. apply sumf_ext. intros K _. rewrite sumf_mul_l, sumf_conj. auto. }
      rewrite sumf_swap. apply sumf_ext. intros K _. rewrite sumf_mul_r. auto. }
    rewrite X. apply Ad. intros K. apply Sq.
  - apply preserving_unital in T. specialize (T [] [] B0 B0). exact T.
  - intros o Bo. rewrite R by auto. apply Ad. intros K. apply Sq.
Qed.
Print Assumptions C48_density_matrix.
(** A noisy Bell pair of which the second qubit is discarded. *)
Definition noisy : circ (op CK) :=
  let q k := NS (if Nat.eqb k 0 then "a" else "b") in
  [(NS "p0", Gate 0 [q 0%nat] (OState false)); (NS "p1", Gate 0 [q 1%nat] PlusState); (NS "h", Gate 1 [q 0%nat] HGate);
   (NS "n", Gate 2 [q 0%nat] (AmplitudeDampling (1 / 3))); (NS "c", Gate 3 [q 0%nat; q 1%nat] CNOTGate);
   (NS "d", Gate 4 [q 1%nat] (Depolarization (1 / 10) (Some (1 / 5)%R) (Some (3 / 10)%R))); (NS "x", Gate 5 [q 1%nat] TraceOp)].
Example C48_somewhere : exists sh, physical (OCirc noisy) /\ op_shape (OCirc noisy) = Ok sh /\ count role_in sh = 0%nat /\ count role_out sh = 1%nat.
Proof.
  assert (E : op_shape (OCirc noisy) = Ok [RW [LO]; RW []] \/ op_shape (OCirc noisy) = Ok [RW [LO]; RW [LO; LI]]) by (vm_compute; auto).
  assert (H : forall sh, op_shape (OCirc noisy) = Ok sh -> physical (OCirc noisy)).
  { intros sh E'. eapply ph_circuit; [apply nodupb_NoDup; vm_compute; reflexivity| | |exact E'].
    - intros k g I. simpl in I. repeat (destruct I as [I|I]; [inversion I; subst; split; [apply nodupb_NoDup; vm_compute; reflexivity|vm_compute; reflexivity]|]). contradiction.
    - intros k g I. simpl in I.
      destruct I as [I|[I|[I|[I|[I|[I|[I|[]]]]]]]]; inversion I; subst; cbn [g_op].
      + apply ph_state. + apply ph_plus. + eapply ph_gate; [apply named_H|apply ns_pure].
      + apply ph_damping; lra. + eapply ph_gate; [apply named_CNOT|apply ns_ctrl]. + apply ph_depolarization; lra. + apply ph_discard. }
  destruct E as [E|E]; eexists; (split; [eapply H; exact E|split; [exact E|split; reflexivity]]).
Qed.
