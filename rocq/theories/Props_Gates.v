(** * C42: the named gates; C46: expressions of gates

    Matrices are indexed by lists of bits, outputs first ([MatSpec]); [has_matrix x n A]: the tensor that the package computes
    for x has 2n bonds of dimension 2 and the entries of A.  The textbook matrices are in [GateSpec]; numbers are pairs of
    Coq's reals. *)
From Coq Require Import Reals Lra.
From Verif Require Import Base Scalar NetSpec Sums NetAlg ModelArray ModelTN ModelVal ModelOps OpsSpec OpsValue ModelContract CircSpec CircOrder ModelCircuit CircSem
  CircShape CircCtrl CircOp CircMain CircBuild CircAdj CircUse CircMul MatSpec MatProofs ExprSpec CircExpr Complex GateSpec ModelGates GateProofs.
Set Implicit Arguments.
Local Open Scope K_scope.
Add Ring CKring_props : (kring CK).

(** ** C46 *)

(** Python's value of every expression of gates with |, *, ~ and Controlled exists, and its tensor is the matrix product,
    Kronecker product, conjugate transpose or controlled matrix of the tensors of its parts.  ([good]: the two sides of | have
    the same number of wires; no ~ of something with a controlled circuit in it; no Controlled of something with a controlled
    circuit or the adjoint of a circuit in it: see C38_controlled_circuit_refuted, C40_twice_refuted and
    C40_insertion_order_refuted.) *)
Theorem C46_expressions (S : scalar) (e : expr S) : good e -> exists x, eval e = Ok x /\ has_matrix x (width e) (den e).
Proof.
  intros G. destruct (expr_ok e G) as (x & E & L & _ & M & _). exists x. split; auto.
  eapply has_eq; [apply lined_has; exact L|exact M].
Qed.
Print Assumptions C46_expressions.

(** When the gates are unitary, so is the whole. *)
Theorem C46_unitary (S : scalar) (e : expr S) : good e -> unitary_gates e ->
  exists x A, eval e = Ok x /\ has_matrix x (width e) A /\ munitary (width e) A.
Proof.
  intros G U. destruct (C46_expressions e G) as (x & E & H). exists x, (den e). split; auto. split; auto. apply expr_unitary; auto.
Qed.
Print Assumptions C46_unitary.

(** ** C42: matrices *)
Theorem C42_matrices :
  has_matrix IGate 1 mone /\
  has_matrix XGate 1 pauli_x /\
  has_matrix YGate 1 (mscale (- (1)) pauli_y) /\
  has_matrix ZGate 1 pauli_z /\
  has_matrix HGate 1 hadamard /\
  has_matrix SGate 1 (phase (PI / 2)) /\
  has_matrix TGate 1 (phase (PI / 4)) /\
  has_matrix SWAPGate 2 mswap /\
  has_matrix CZGate 2 (mctrl true pauli_z) /\
  has_matrix CNOTGate 2 (mctrl true pauli_x).
Proof.
  repeat split; [apply I_mat|apply X_mat|apply Y_mat|apply Z_mat|apply H_mat|apply S_mat|apply T_mat|apply SWAP_mat|apply CZ_mat|apply CNOT_mat].
Qed.
Print Assumptions C42_matrices.

(** The rotations are cos t + i sin t P. *)
Theorem C42_rotations t :
  has_matrix (XRotation t) 1 (mexp t pauli_x) /\
  has_matrix (ZRotation t) 1 (mexp t pauli_z) /\
  has_matrix (ZZRotation t) 2 (mexp t (mkron 1 pauli_z pauli_z)) /\
  exists x, XXRotation t = Ok x /\ has_matrix x 2 (mexp t (mkron 1 pauli_x pauli_x)).
Proof.
  split; [apply XRot_mat|]. split; [apply ZRot_mat|]. split; [apply ZZRot_mat|].
  destruct (XX_ok t) as (x & E & _ & _ & H). eauto.
Qed.
Print Assumptions C42_rotations.

(** ... which is the exponential of i t P, for the four generators (and every Hermitian involution): the identity at 0, a
    one-parameter group, with derivative i P times it. *)
Definition generator (n : nat) (P : mat CK) : Prop := meq n (mmul n P P) mone /\ meq n (madj P) P.
Theorem C42_exponential n P : generator n P ->
  meq n (mexp 0 P) mone /\
  (forall s t, meq n (mmul n (mexp s P) (mexp t P)) (mexp (s + t) P)) /\
  (forall t, meq n (madj (mexp t P)) (mexp (- t) P)) /\
  (forall t, munitary n (mexp t P)) /\
  (forall t o i, bits n o -> bits n i ->
     let d := ci * mmul n P (mexp t P) o i in
     derivable_pt_lim (fun t => fst (mexp t P o i)) t (fst d) /\ derivable_pt_lim (fun t => snd (mexp t P o i)) t (snd d)).
Proof.
  intros [I H]. split; [apply mexp_0|]. split; [intros s t; apply mexp_add; auto|]. split; [intros t; apply mexp_adj; auto|].
  split; [intros t; apply mexp_unitary; auto|]. intros t o i Bo Bi.
  assert (E : ci * mmul n P (mexp t P) o i = cr (- sin t) * mone o i + ci * cr (cos t) * P o i).
  { unfold mmul, mexp.
    rewrite (sumf_ext _ (fun m => kdelta (eqb m i) * (cr (cos t) * P o m) + (ci * cr (sin t)) * (P o m * P m i))) by (intros; unfold mone; ring).
    rewrite sumf_add, pin_r by auto. rewrite sumf_mul_l. change (sumf (fun m => P o m * P m i) (words2 n)) with (mmul n P P o i).
    rewrite (I o i Bo Bi). generalize (mone (S := CK) o i), (P o i). intros [x1 x2] [y1 y2]. ck; ring. }
  rewrite E. unfold mexp. generalize (mone (S := CK) o i), (P o i). intros [x1 x2] [y1 y2].
  cbv [k0 k1 kadd kmul kopp kconj CK cr ci cadd cmul fst snd].
  assert (D : forall f l a d, (forall u, a * cos u + d * sin u = f u)%R -> (a * - sin t + d * cos t = l)%R -> derivable_pt_lim f t l).
  { intros f l a d Ef <-. eapply derivable_pt_lim_ext; [exact Ef|].
    apply (derivable_pt_lim_plus (fun u => a * cos u)%R (fun u => d * sin u)%R).
    - apply (derivable_pt_lim_scal cos a t (- sin t)). apply derivable_pt_lim_cos.
    - apply (derivable_pt_lim_scal sin d t (cos t)). apply derivable_pt_lim_sin. }
  split; [apply (D _ _ x1 (- y2)%R)|apply (D _ _ x2 y1)]; intros; ring.
Qed.
Print Assumptions C42_exponential.
Example C42_exponential_somewhere :
  generator 1 pauli_x /\ generator 1 pauli_z /\ generator 2 (mkron 1 pauli_x pauli_x) /\ generator 2 (mkron 1 pauli_z pauli_z).
Proof.
  split; [apply x_inv|]. split; [apply z_inv|]. split; [apply (kron_inv x_inv x_inv)|apply (kron_inv z_inv z_inv)].
Qed.

(** ** C42: unitary, with correct adjoints *)

(** the gates of the package *)
Inductive named : op CK -> nat -> Prop :=
| named_I : named IGate 1 | named_X : named XGate 1 | named_Y : named YGate 1 | named_Z : named ZGate 1
| named_H : named HGate 1 | named_S : named SGate 1 | named_T : named TGate 1
| named_XHalf : named XHalfGate 1 | named_YHalf : named YHalfGate 1
| named_SWAP : named SWAPGate 2 | named_CZ : named CZGate 2 | named_CNOT : named CNOTGate 2
| named_XRotation t : named (XRotation t) 1 | named_ZRotation t : named (ZRotation t) 1
| named_ZZRotation t : named (ZZRotation t) 2 | named_XXRotation t x : XXRotation t = Ok x -> named x 2.
Lemma named_ok x n : named x n -> gate_on n x /\ gate_like x /\ exists A, has_matrix x n A /\ munitary n A.
Proof.
  intros H.
  assert (U : forall n P, involution n P /\ hermitian n P -> munitary n P) by (intros m P [I J]; apply involution_unitary; auto).
  destruct H.
  - split; [apply I_on|]. split; [apply I_like|]. exists mone. split; [apply I_mat|apply unitary_one].
  - split; [apply X_on|]. split; [apply X_like|]. eexists. split; [apply X_mat|apply U, x_inv].
  - split; [apply Y_on|]. split; [apply Y_like|]. eexists. split; [apply Y_mat|]. apply scale_unitary; [ck; ring|apply U, y_inv].
  - split; [apply Z_on|]. split; [apply Z_like|]. eexists. split; [apply Z_mat|apply U, z_inv].
  - split; [apply H_on|]. split; [apply H_like|]. eexists. split; [apply H_mat|apply U, h_inv].
  - split; [apply S_on|]. split; [apply S_like|]. eexists. split; [apply S_mat|apply phase_unitary].
  - split; [apply T_on|]. split; [apply T_like|]. eexists. split; [apply T_mat|apply phase_unitary].
  - split; [apply XHalf_on|]. split; [apply XHalf_like|]. eexists. split; [apply XHalf_mat|apply half_unitary; apply x_inv].
  - split; [apply YHalf_on|]. split; [apply YHalf_like|]. eexists. split; [apply YHalf_mat|apply half_unitary; apply y_inv].
  - split; [apply SWAP_on|]. split; [apply SWAP_like|]. eexists. split; [apply SWAP_mat|apply U, swap_inv].
  - split; [apply CZ_on|]. split; [apply CZ_like|]. eexists. split; [apply CZ_mat|apply (@unitary_ctrl CK 1), U, z_inv].
  - split; [apply CNOT_on|]. split; [apply CNOT_like|]. eexists. split; [apply CNOT_mat|apply (@unitary_ctrl CK 1), U, x_inv].
  - split; [apply XRot_on|]. split; [apply XRot_like|]. eexists. split; [apply XRot_mat|apply mexp_unitary; apply x_inv].
  - split; [apply ZRot_on|]. split; [apply ZRot_like|]. eexists. split; [apply ZRot_mat|apply mexp_unitary; apply z_inv].
  - split; [apply ZZRot_on|]. split; [apply ZZRot_like|]. eexists. split; [apply ZZRot_mat|apply mexp_unitary; apply (kron_inv z_inv z_inv)].
  - destruct (XX_ok t) as (y & E & L & O & M). rewrite H in E. inversion E; subst y. split; auto. split; auto. eexists. split; [exact M|].
    apply mexp_unitary; apply (kron_inv x_inv x_inv).
Qed.

(** Every gate is unitary: its matrix A satisfies A* A = A A* = 1, its adjoint exists and has the matrix A*, also when the gate is
    flagged as self-adjoint (and ~ returns it unchanged); and g | ~g and ~g | g are the identity. *)
Theorem C42_unitary x n : named x n -> exists A x', has_matrix x n A /\ munitary n A /\ adj x = Ok x' /\ has_matrix x' n (madj A) /\
  (exists r, op_or x x' = Ok r /\ has_matrix r n mone) /\ (exists r, op_or x' x = Ok r /\ has_matrix r n mone).
Proof.
  intros H. destruct (named_ok H) as (O & L & A & M & U). exists A. destruct (adj_has L O M) as (x' & E & M'). exists x'.
  split; auto. split; auto. split; auto. split; auto. pose proof (gate_width O) as W. destruct U as [U1 U2]. split.
  - destruct (@expr_has (ESeq (EGate x) (EAdj (EGate x))) mone) as (r & Er & Hr).
    + split; [exact L|]. split; [split; [exact L|auto]|auto].
    + cbn [width den]. cbn [width] in W. rewrite W. eapply meq_trans; [|exact U1].
      apply mmul_ext; [apply madj_ext|]; apply has_den; auto.
    + cbn [eval bind] in Er. rewrite E in Er. cbn [bind] in Er. exists r. split; auto. cbn [width] in *. rewrite W in Hr. auto.
  - destruct (@expr_has (ESeq (EAdj (EGate x)) (EGate x)) mone) as (r & Er & Hr).
    + split; [split; [exact L|auto]|]. split; [exact L|auto].
    + cbn [width den]. cbn [width] in W. rewrite W. eapply meq_trans; [|exact U2].
      apply mmul_ext; [|apply madj_ext]; apply has_den; auto.
    + cbn [eval bind] in Er. rewrite E in Er. cbn [bind] in Er. exists r. split; auto. cbn [width] in *. rewrite W in Hr. auto.
Qed.
Print Assumptions C42_unitary.

(** Every circuit expression over the named gates is unitary. *)
Fixpoint over_named (e : expr CK) : Prop :=
  match e with
  | EGate x => exists n, named x n
  | ESeq a b => over_named a /\ over_named b /\ width a = width b
  | EPar a b => over_named a /\ over_named b
  | EAdj a => over_named a /\ can_adj a = true
  | ECtrl _ a => over_named a /\ can_ctrl a = true
  end.
Theorem C42_circuits e : over_named e -> exists x A, eval e = Ok x /\ has_matrix x (width e) A /\ munitary (width e) A.
Proof.
  intros H. assert (G : good e /\ unitary_gates e).
  { induction e as [x|a IHa b IHb|a IHa b IHb|a IHa|c a IHa]; simpl in H.
    - destruct H as [n H]. destruct (named_ok H) as (O & L & A & M & U). split; auto. cbn [unitary_gates]. rewrite (gate_width O).
      eapply munitary_ext; [|exact U]. apply meq_sym, has_den; auto. apply gate_width; auto.
    - cbn [good unitary_gates]. tauto.
    - cbn [good unitary_gates]. tauto.
    - cbn [good unitary_gates]. tauto.
    - cbn [good unitary_gates]. tauto. }
  apply C46_unitary; tauto.
Qed.
Print Assumptions C42_circuits.
(** (H * ~S) | Controlled(X) | ~((T * XRotation(1)) | SWAP) *)
Example C42_circuits_somewhere :
  over_named (ESeq (ESeq (EPar (EGate HGate) (EAdj (EGate SGate))) (ECtrl true (EGate XGate)))
                   (EAdj (ESeq (EPar (EGate TGate) (EGate (XRotation 1))) (EGate SWAPGate)))).
Proof. simpl. repeat split; eauto using named. Qed.

(** The overridden adjoints XRotation(-t), ZRotation(-t) (circuit.py:725-726, 751-752) have the matrices of adjoints, and rotations
    about the same axis add: *)
Theorem C42_rotation_adjoint t : exists A B, has_matrix (XRotation t) 1 A /\ has_matrix (XRotation (- t)) 1 (madj A) /\
  has_matrix (ZRotation t) 1 B /\ has_matrix (ZRotation (- t)) 1 (madj B).
Proof.
  exists (mexp t pauli_x), (mexp t pauli_z). split; [apply XRot_mat|]. split; [|split; [apply ZRot_mat|]].
  - eapply has_eq; [apply XRot_mat|]. apply meq_sym, mexp_adj, x_inv.
  - eapply has_eq; [apply ZRot_mat|]. apply meq_sym, mexp_adj, z_inv.
Qed.
Print Assumptions C42_rotation_adjoint.
Theorem C42_rotations_add s t :
  (exists r A, op_or (XRotation s) (XRotation t) = Ok r /\ has_matrix r 1 A /\ has_matrix (XRotation (s + t)) 1 A) /\
  (exists r A, op_or (ZRotation s) (ZRotation t) = Ok r /\ has_matrix r 1 A /\ has_matrix (ZRotation (s + t)) 1 A) /\
  (exists r A, op_or (ZZRotation s) (ZZRotation t) = Ok r /\ has_matrix r 2 A /\ has_matrix (ZZRotation (s + t)) 2 A) /\
  (exists x y z r A, XXRotation s = Ok x /\ XXRotation t = Ok y /\ XXRotation (s + t) = Ok z /\
     op_or x y = Ok r /\ has_matrix r 2 A /\ has_matrix z 2 A).
Proof.
  assert (C : (t + s = s + t)%R) by ring. split; [|split; [|split]].
  - destruct (seq_has (XRot_like s) (XRot_like t) (XRot_on s) (XRot_on t) (XRot_mat s) (XRot_mat t)) as (r & E & M).
    exists r, (mexp (s + t) pauli_x). split; auto. split; [|apply XRot_mat]. eapply has_eq; [exact M|]. rewrite <- C. apply mexp_add, x_inv.
  - destruct (seq_has (ZRot_like s) (ZRot_like t) (ZRot_on s) (ZRot_on t) (ZRot_mat s) (ZRot_mat t)) as (r & E & M).
    exists r, (mexp (s + t) pauli_z). split; auto. split; [|apply ZRot_mat]. eapply has_eq; [exact M|]. rewrite <- C. apply mexp_add, z_inv.
  - destruct (seq_has (ZZRot_like s) (ZZRot_like t) (ZZRot_on s) (ZZRot_on t) (ZZRot_mat s) (ZZRot_mat t)) as (r & E & M).
    exists r, (mexp (s + t) (mkron 1 pauli_z pauli_z)). split; auto. split; [|apply ZZRot_mat]. eapply has_eq; [exact M|]. rewrite <- C.
    apply mexp_add. apply (kron_inv z_inv z_inv).
  - destruct (XX_ok s) as (x & Ex & Lx & Ox & Mx). destruct (XX_ok t) as (y & Ey & Ly & Oy & My). destruct (XX_ok (s + t)) as (z & Ez & Lz & Oz & Mz).
    destruct (seq_has Lx Ly Ox Oy Mx My) as (r & E & M). exists x, y, z, r, (mexp (s + t) (mkron 1 pauli_x pauli_x)).
    split; auto. split; auto. split; auto. split; auto. split; auto. eapply has_eq; [exact M|]. rewrite <- C.
    apply mexp_add. apply (kron_inv x_inv x_inv).
Qed.
Print Assumptions C42_rotations_add.

(** ** C42: relations *)
Theorem C42_squares :
  (exists r, op_or XHalfGate XHalfGate = Ok r /\ has_matrix r 1 pauli_x) /\
  (exists r, op_or YHalfGate YHalfGate = Ok r /\ has_matrix r 1 pauli_y) /\
  (exists r, op_or TGate TGate = Ok r /\ has_matrix r 1 (phase (PI / 2))) /\
  (exists r, op_or SGate SGate = Ok r /\ has_matrix r 1 pauli_z) /\
  (exists r, op_or HGate HGate = Ok r /\ has_matrix r 1 mone) /\
  (exists r, op_or SWAPGate SWAPGate = Ok r /\ has_matrix r 2 mone).
Proof.
  assert (Ph : forall x y, meq 1 (mmul 1 (phase x) (phase y)) (phase (x + y))).
  { intros x y o i Bo Bi; bit_cases; eval_entry; ck; rewrite ?cos_plus, ?sin_plus; ring. }
  split; [|split; [|split; [|split; [|split]]]].
  - destruct (seq_has XHalf_like XHalf_like XHalf_on XHalf_on XHalf_mat XHalf_mat) as (r & E & M). exists r. split; auto. eapply has_eq; [exact M|].
    intros o i Bo Bi; bit_cases; eval_entry; ck; field.
  - destruct (seq_has YHalf_like YHalf_like YHalf_on YHalf_on YHalf_mat YHalf_mat) as (r & E & M). exists r. split; auto. eapply has_eq; [exact M|].
    intros o i Bo Bi; bit_cases; eval_entry; ck; field.
  - destruct (seq_has T_like T_like T_on T_on T_mat T_mat) as (r & E & M). exists r. split; auto. eapply has_eq; [exact M|].
    replace (PI / 2)%R with (PI / 4 + PI / 4)%R by field. apply Ph.
  - destruct (seq_has S_like S_like S_on S_on S_mat S_mat) as (r & E & M). exists r. split; auto. eapply has_eq; [exact M|].
    eapply meq_trans; [apply Ph|]. replace (PI / 2 + PI / 2)%R with PI by field. unfold phase, cis. rewrite cos_PI, sin_PI.
    entries. all: ck; ring.
  - destruct (seq_has H_like H_like H_on H_on H_mat H_mat) as (r & E & M). exists r. split; auto. eapply has_eq; [exact M|]. apply h_inv.
  - destruct (seq_has SWAP_like SWAP_like SWAP_on SWAP_on SWAP_mat SWAP_mat) as (r & E & M). exists r. split; auto. eapply has_eq; [exact M|]. apply swap_inv.
Qed.
Print Assumptions C42_squares.

(** Controlled(X) and Controlled(Z) are the gates CNOT and CZ. *)
Theorem C42_controlled :
  (exists r A, controlled true XGate = Ok r /\ has_matrix r 2 A /\ has_matrix CNOTGate 2 A) /\
  (exists r A, controlled true ZGate = Ok r /\ has_matrix r 2 A /\ has_matrix CZGate 2 A).
Proof.
  split.
  - destruct (ctrl_has true X_like X_on X_mat) as (r & E & M). exists r, (mctrl true pauli_x). split; auto. split; auto. apply CNOT_mat.
  - destruct (ctrl_has true Z_like Z_on Z_mat) as (r & E & M). exists r, (mctrl true pauli_z). split; auto. split; auto. apply CZ_mat.
Qed.
Print Assumptions C42_controlled.

(** H | X | H is Z. *)
Theorem C42_conjugation :
  exists r, eval (ESeq (ESeq (EGate HGate) (EGate XGate)) (EGate HGate)) = Ok r /\ has_matrix r 1 pauli_z.
Proof.
  apply (@expr_has (ESeq (ESeq (EGate HGate) (EGate XGate)) (EGate HGate))).
  - cbn [good]. split; [split; [apply H_like|split; [apply X_like|auto]]|split; [apply H_like|auto]].
  - change (meq 1 (mmul 1 (den (EGate HGate)) (mmul 1 (den (EGate XGate)) (den (EGate HGate)))) pauli_z).
    eapply meq_trans; [apply mmul_ext; [apply (has_den H_mat); auto|apply mmul_ext; [apply (has_den X_mat); auto|apply (has_den H_mat); auto]]|].
    assert (E : (/ sqrt 2 * / sqrt 2 = / 2)%R) by (rewrite <- Rinv_mult, sqrt_sqrt by lra; auto).
    intros o i Bo Bi; bit_cases; eval_entry; ck; ring_simplify; simpl; rewrite ?Rmult_1_r, ?E; try field.
Qed.
Print Assumptions C42_conjugation.

(** The half gate of Y does not square to YGate: YGate is the negative of the Pauli matrix. *)
Theorem C42_y_half_refuted :
  ~ (exists r A, op_or YHalfGate YHalfGate = Ok r /\ has_matrix r 1 A /\ has_matrix YGate 1 A).
Proof.
  intros (r & A & E & M & Y). destruct C42_squares as (_ & (r' & E' & M') & _). rewrite E in E'. inversion E'; subst r'.
  pose proof (has_unique M M') as H1. pose proof (has_unique Y Y_mat) as H2.
  assert (X : pauli_y [0%nat] [1%nat] = mscale (- (1)) pauli_y [0%nat] [1%nat]).
  { rewrite <- H1, <- H2; auto; split; auto; repeat constructor. }
  cbv [pauli_y m22 mscale k0 k1 kadd kmul kopp kconj CK cr ci cadd cmul copp] in X. simpl in X.
  assert (X' : snd ((- 0)%R, (- 1)%R) = snd ((- (1)) * (- 0) - - 0 * - (1), (- (1)) * - (1) + - 0 * - 0)%R) by (rewrite <- X; auto).
  simpl in X'. lra.
Qed.
Print Assumptions C42_y_half_refuted.

(** ** States and measurements *)

(** the tensor has one bond per qubit, and the entries of the vector *)
Definition has_vector (x : op CK) (n : nat) (f : list nat -> CK) : Prop :=
  exists v, tensor_pure x = Ok v /\ tval_shape v = twos n /\ forall o, bits n o -> tval_value v o = f o.
Definition basis_vector (b : nat) : list nat -> CK := fun o => kdelta (eqb o [b]).
Definition diagonal_vector (s : R) : list nat -> CK := fun o => cr (/ sqrt 2) * match o with [0%nat] => 1 | _ => cr s end.
Lemma state_has (x : op CK) f : op_wf x -> op_pure x = Ok true -> op_shape x = Ok [RW [LO]] ->
  (forall o, bits 1 o -> op_amp x o [] = f o) -> has_vector x 1 f.
Proof.
  intros W P E H. destruct (conv_ok W) as [Hp _]. destruct (Hp P) as (s & Es & v & Ev & _ & Sv & V). rewrite E in Es. inversion Es; subst s.
  exists v. split; auto. split; auto. intros o Bo. rewrite <- H by auto. rewrite <- V; auto; [rewrite app_nil_r; auto|split; auto; constructor].
Qed.
Lemma meas_has (x : op CK) f : op_wf x -> op_pure x = Ok true -> op_shape x = Ok [RW [LI]] ->
  (forall i, bits 1 i -> op_amp x [] i = f i) -> has_vector x 1 f.
Proof.
  intros W P E H. destruct (conv_ok W) as [Hp _]. destruct (Hp P) as (s & Es & v & Ev & _ & Sv & V). rewrite E in Es. inversion Es; subst s.
  exists v. split; auto. split; auto. intros o Bo. rewrite <- H by auto. rewrite <- V; auto. split; auto; constructor.
Qed.
Theorem C42_states :
  has_vector (OState (S := CK) false) 1 (basis_vector 0) /\ has_vector (OState (S := CK) true) 1 (basis_vector 1) /\
  has_vector (OMeas (S := CK) false) 1 (basis_vector 0) /\ has_vector (OMeas (S := CK) true) 1 (basis_vector 1) /\
  has_vector PlusState 1 (diagonal_vector 1) /\ has_vector MinusState 1 (diagonal_vector (- (1))) /\
  has_vector PlusMeas 1 (diagonal_vector 1) /\ has_vector MinusMeas 1 (diagonal_vector (- (1))).
Proof.
  assert (C : forall f g : list nat -> CK, f [0%nat] = g [0%nat] -> f [1%nat] = g [1%nat] -> forall o, bits 1 o -> f o = g o).
  { intros f g E0 E1 o Bo. bit_cases; auto. }
  split; [apply state_has; try reflexivity; constructor|]. split; [apply state_has; try reflexivity; constructor|].
  split; [apply meas_has; try reflexivity; constructor|]. split; [apply meas_has; try reflexivity; constructor|].
  split; [apply state_has; [wf_gate|auto|auto|apply C; eval_entry; ck; try ring; field; apply sqrt2_neq_0]|].
  split; [apply state_has; [wf_gate|auto|auto|apply C; eval_entry; ck; try ring; field; apply sqrt2_neq_0]|].
  split; [apply meas_has; [wf_gate|auto|auto|apply C; eval_entry; ck; try ring; field; apply sqrt2_neq_0]|].
  apply meas_has; [wf_gate|auto|auto|apply C; eval_entry; ck; try ring; field; apply sqrt2_neq_0].
Qed.
Print Assumptions C42_states.
(** They are two orthonormal bases. *)
Theorem C42_orthonormal :
  (forall b c, (b < 2)%nat -> (c < 2)%nat -> sumf (fun o => kconj (basis_vector b o) * basis_vector c o) (words2 1) = kdelta (Nat.eqb b c)) /\
  (forall s t, (s = 1 \/ s = - (1))%R -> (t = 1 \/ t = - (1))%R ->
     sumf (fun o => kconj (diagonal_vector s o) * diagonal_vector t o) (words2 1) = if Req_EM_T s t then 1 else 0).
Proof.
  split.
  - intros b c Hb Hc. assert (b = 0 \/ b = 1)%nat as [-> | ->] by lia; assert (c = 0 \/ c = 1)%nat as [-> | ->] by lia; eval_entry; ck; ring.
  - assert (E : (/ sqrt 2 * / sqrt 2 = / 2)%R) by (rewrite <- Rinv_mult, sqrt_sqrt by lra; auto).
    intros s t Hs Ht.
    assert (K : sumf (fun o => kconj (diagonal_vector s o) * diagonal_vector t o) (words2 1) = cr (/ 2 + / 2 * (s * t))%R).
    { eval_entry. ck; ring_simplify; simpl; rewrite ?Rmult_1_r, ?E; try field. }
    rewrite K. destruct (Req_EM_T s t) as [->|N].
    + destruct Ht as [-> | ->]; ck; field.
    + destruct Hs as [-> | ->], Ht as [-> | ->]; try (exfalso; apply N; reflexivity); ck; field.
Qed.
Print Assumptions C42_orthonormal.
