(** Matrices of the named gates. *)
From Coq Require Import Reals Lra.
From Verif Require Import Base Scalar NetSpec Sums NetAlg ModelArray ModelTN ModelVal ModelOps OpsSpec OpsValue ModelContract CircSpec CircOrder ModelCircuit CircSem
  CircShape CircCtrl CircOp CircMain CircBuild CircAdj CircUse CircMul MatSpec MatProofs ExprSpec CircExpr Complex GateSpec ModelGates.
Set Implicit Arguments.
Local Open Scope K_scope.
Add Ring CKring : (kring CK).

Ltac bit_cases :=
  repeat match goal with
  | H : bits ?n ?x |- _ =>
      apply (proj2 (in_words n x)) in H; cbv [words2 indices repeat seq flat_map map app] in H; simpl in H;
      repeat (destruct H as [<-|H]; [|]); try contradiction
  end.
Ltac eval_entry := cbv -[k0 k1 kadd kmul kopp kconj CK cr ci cis Rplus Rmult Ropp Rinv Rminus Rdiv IZR sqrt cos sin PI].

Section Exp.
  Variable n : nat.
  Variable P : mat CK.
  Hypothesis involutive : meq n (mmul n P P) mone.
  Lemma mexp_add a b : meq n (mmul n (mexp a P) (mexp b P)) (mexp (a + b) P).
  Proof.
    intros o i Bo Bi. unfold mmul, mexp.
    rewrite (sumf_ext _ (fun m => kdelta (eqb o m) * (cr (cos a) * (cr (cos b) * kdelta (eqb m i) + ci * cr (sin b) * P m i))
       + (kdelta (eqb m i) * (ci * cr (sin a) * cr (cos b) * P o m) + (ci * cr (sin a) * (ci * cr (sin b))) * (P o m * P m i)))).
    2:{ intros m _. unfold mone. ring. }
    rewrite !sumf_add, pin_l, pin_r by auto. rewrite sumf_mul_l.
    change (sumf (fun m => P o m * P m i) (words2 n)) with (mmul n P P o i). rewrite involutive by auto. unfold mone.
    rewrite cos_plus, sin_plus.
    generalize (kdelta (eqb o i) : CK), (P o i). intros [x1 x2] [y1 y2]. ck; ring.
  Qed.
  Lemma mexp_0 : meq n (mexp 0 P) mone.
  Proof. intros o i Bo Bi. unfold mexp. rewrite cos_0, sin_0. generalize (mone (S := CK) o i), (P o i). intros [x1 x2] [y1 y2]. ck; ring. Qed.
  Hypothesis hermitian : meq n (madj P) P.
  Lemma mexp_adj a : meq n (madj (mexp a P)) (mexp (- a) P).
  Proof.
    intros o i Bo Bi. unfold madj, mexp. rewrite cos_neg, sin_neg. rewrite <- (hermitian Bo Bi). unfold madj.
    assert (E : mone (S := CK) i o = mone o i) by (unfold mone; rewrite eqb_sym; auto). rewrite E.
    assert (E' : kconj (mone (S := CK) o i) = mone o i) by (unfold mone; apply kconj_delta). rewrite !kconj_add, !kconj_mul, E'.
    generalize (mone (S := CK) o i), (kconj (P i o)). intros [x1 x2] [y1 y2]. ck; ring.
  Qed.
  Lemma mexp_unitary a : munitary n (mexp a P).
  Proof.
    split; (eapply meq_trans; [apply mmul_ext; [first [apply mexp_adj|intros ? ? _ _; reflexivity]|first [apply mexp_adj|intros ? ? _ _; reflexivity]]|]);
      (eapply meq_trans; [apply mexp_add|]).
    - replace (- a + a)%R with 0%R by ring. apply mexp_0.
    - replace (a + - a)%R with 0%R by ring. apply mexp_0.
  Qed.
End Exp.

(** ** operations *)

(** a gate on [n] wires that is not a circuit *)
Definition gate_on (n : nat) (x : op CK) : Prop :=
  op_wf x /\ op_pure x = Ok true /\ (forall c, x <> OCirc c) /\
  exists sh, op_shape x = Ok sh /\ length sh = n /\ forallb role_unitary sh = true.
Ltac wf_gate := constructor; [apply complete_tensor|..]; reflexivity.
Ltac gate_tac :=
  split; [|split; [reflexivity|split; [discriminate|eexists; split; [reflexivity|split; reflexivity]]]].
Lemma open_complete es : nodes (match open_net es with VNet n => n | _ => empty_tn end) = [] -> complete (open_net es).
Proof.
  unfold open_net. intros E. apply complete_net. rewrite E. intros k nd [].
Qed.
Ltac wf_open := constructor; [apply open_complete; vm_compute; reflexivity|..]; vm_compute; reflexivity.
Lemma X_on : gate_on 1 XGate. Proof. gate_tac. wf_gate. Qed.
Lemma Y_on : gate_on 1 YGate. Proof. gate_tac. wf_gate. Qed.
Lemma Z_on : gate_on 1 ZGate. Proof. gate_tac. wf_gate. Qed.
Lemma H_on : gate_on 1 HGate. Proof. gate_tac. wf_gate. Qed.
Lemma T_on : gate_on 1 TGate. Proof. gate_tac. wf_gate. Qed.
Lemma S_on : gate_on 1 SGate. Proof. gate_tac. wf_gate. Qed.
Lemma I_on : gate_on 1 IGate. Proof. gate_tac. wf_open. Qed.
Lemma SWAP_on : gate_on 2 SWAPGate. Proof. gate_tac. wf_open. Qed.
Lemma CZ_on : gate_on 2 CZGate. Proof. gate_tac. wf_gate. Qed.
Lemma CNOT_on : gate_on 2 CNOTGate. Proof. gate_tac. wf_gate. Qed.
Lemma XHalf_on : gate_on 1 XHalfGate. Proof. gate_tac. wf_gate. Qed.
Lemma YHalf_on : gate_on 1 YHalfGate. Proof. gate_tac. wf_gate. Qed.
Lemma XRot_on t : gate_on 1 (XRotation t). Proof. gate_tac. wf_gate. Qed.
Lemma ZRot_on t : gate_on 1 (ZRotation t). Proof. gate_tac. wf_gate. Qed.
Lemma ZZRot_on t : gate_on 2 (ZZRotation t). Proof. gate_tac. wf_gate. Qed.

Lemma gate_has n (x : op CK) : gate_on n x -> has_matrix x n (op_amp x).
Proof.
  intros (W & P & _ & sh & E & L & U). eapply has_amp; eauto.
  - rewrite <- L. apply unitary_all; auto using unitary_out.
  - rewrite <- L. apply unitary_all; auto using unitary_in.
Qed.
Lemma gate_mat n (x : op CK) A : gate_on n x -> meq n (op_amp x) A -> has_matrix x n A.
Proof. intros G. apply has_eq. apply gate_has; auto. Qed.

Ltac entries := intros o i Bo Bi; bit_cases; eval_entry; try reflexivity; try solve [ck; ring].
Lemma X_mat : has_matrix XGate 1 pauli_x.
Proof. apply (gate_mat X_on). entries. Qed.
Lemma Y_mat : has_matrix YGate 1 (mscale (- (1)) pauli_y).
Proof. apply (gate_mat Y_on). entries. Qed.
Lemma Z_mat : has_matrix ZGate 1 pauli_z.
Proof. apply (gate_mat Z_on). entries. Qed.
Lemma sqrt_half : sqrt (1 / 2) = (/ sqrt 2)%R.
Proof. unfold Rdiv. rewrite Rmult_1_l, sqrt_inv; auto. Qed.
Lemma H_mat : has_matrix HGate 1 hadamard.
Proof. apply (gate_mat H_on). intros o i Bo Bi. unfold HGate. rewrite sqrt_half. revert o i Bo Bi. entries. Qed.
Lemma T_mat : has_matrix TGate 1 (phase (PI / 4)).
Proof.
  apply (gate_mat T_on). unfold phase, cis. rewrite cos_PI4, sin_PI4. unfold TGate. rewrite sqrt_half.
  entries. all: ck; field; auto using sqrt2_neq_0.
Qed.
Lemma S_mat : has_matrix SGate 1 (phase (PI / 2)).
Proof. apply (gate_mat S_on). unfold phase, cis. rewrite cos_PI2, sin_PI2. entries. all: ck; ring. Qed.
Lemma I_mat : has_matrix IGate 1 mone.
Proof. apply (gate_mat I_on). entries. Qed.
Lemma SWAP_mat : has_matrix SWAPGate 2 mswap.
Proof. apply (gate_mat SWAP_on). entries. Qed.
Lemma CZ_mat : has_matrix CZGate 2 (mctrl true pauli_z).
Proof. apply (gate_mat CZ_on). entries. Qed.
Lemma CNOT_mat : has_matrix CNOTGate 2 (mctrl true pauli_x).
Proof. apply (gate_mat CNOT_on). entries. Qed.
Lemma XRot_mat t : has_matrix (XRotation t) 1 (mexp t pauli_x).
Proof. apply (gate_mat (XRot_on t)). entries. Qed.
Lemma ZRot_mat t : has_matrix (ZRotation t) 1 (mexp t pauli_z).
Proof. apply (gate_mat (ZRot_on t)). entries. all: ck; rewrite ?cos_neg, ?sin_neg; ring. Qed.
Lemma ZZRot_mat t : has_matrix (ZZRotation t) 2 (mexp t (mkron 1 pauli_z pauli_z)).
Proof. apply (gate_mat (ZZRot_on t)). entries. all: ck; rewrite ?cos_neg, ?sin_neg; ring. Qed.

(** ** the gates in expressions *)
Definition flag_ok (x : op CK) (n : nat) (sa : bool) : Prop := sa = true -> meq n (op_amp x) (madj (op_amp x)).
Lemma gate_like_pure n sa l : gate_on n (OPure sa (repeat (RW [LI; LO]) n) l) -> n <> 0%nat ->
  flag_ok (OPure sa (repeat (RW [LI; LO]) n) l) n sa -> gate_like (OPure sa (repeat (RW [LI; LO]) n) l).
Proof.
  intros (W & P & N & sh & E & L & U) Nz F. split; auto. split; auto. split; [|split; [auto|exists sh; split; auto; split; auto]].
  - constructor. intros Sa. split; [clear; induction n; simpl; f_equal; auto|]. simpl in E. inversion E; subst sh.
    rewrite (unitary_all _ role_out U unitary_out), (unitary_all _ role_in U unitary_in), L. intros x y Bx By. rewrite (F Sa y x); auto.
  - intros ->. auto.
Qed.
Lemma gate_like_ctrl n sa sh l : gate_on n (OCtrl sa sh l) -> n <> 0%nat -> flag_ok (OCtrl sa sh l) n sa -> gate_like (OCtrl sa sh l).
Proof.
  intros (W & P & N & sh' & E & L & U) Nz F. simpl in E. inversion E; subst sh'. split; auto. split; auto. split; [|split; [auto|exists sh; split; auto; split; auto]].
  - constructor. intros Sa. split.
    + clear -U. induction sh as [|r sh IH]; simpl in *; auto. apply andb_prop in U as [U1 U2]. rewrite IH by auto.
      destruct (unitary_eq _ U1) as [-> | ->]; auto.
    + rewrite (unitary_all _ role_out U unitary_out), (unitary_all _ role_in U unitary_in), L. intros x y Bx By. rewrite (F Sa y x); auto.
  - intros ->. auto.
Qed.
Ltac flag := first [intros X; discriminate X | intros _; entries].
Lemma X_like : gate_like XGate. Proof. apply (@gate_like_pure 1); [apply X_on|auto|flag]. Qed.
Lemma Y_like : gate_like YGate. Proof. apply (@gate_like_pure 1); [apply Y_on|auto|flag]. Qed.
Lemma Z_like : gate_like ZGate. Proof. apply (@gate_like_ctrl 1); [apply Z_on|auto|flag]. Qed.
Lemma H_like : gate_like HGate. Proof. apply (@gate_like_pure 1); [apply H_on|auto|flag]. Qed.
Lemma T_like : gate_like TGate. Proof. apply (@gate_like_ctrl 1); [apply T_on|auto|flag]. Qed.
Lemma S_like : gate_like SGate. Proof. apply (@gate_like_ctrl 1); [apply S_on|auto|flag]. Qed.
Lemma I_like : gate_like IGate. Proof. apply (@gate_like_pure 1); [apply I_on|auto|flag]. Qed.
Lemma SWAP_like : gate_like SWAPGate. Proof. apply (@gate_like_pure 2); [apply SWAP_on|auto|flag]. Qed.
Lemma CZ_like : gate_like CZGate. Proof. apply (@gate_like_ctrl 2); [apply CZ_on|auto|flag]. Qed.
Lemma CNOT_like : gate_like CNOTGate. Proof. apply (@gate_like_ctrl 2); [apply CNOT_on|auto|flag]. Qed.
Lemma XHalf_like : gate_like XHalfGate. Proof. apply (@gate_like_pure 1); [apply XHalf_on|auto|flag]. Qed.
Lemma YHalf_like : gate_like YHalfGate. Proof. apply (@gate_like_pure 1); [apply YHalf_on|auto|flag]. Qed.
Lemma XRot_like t : gate_like (XRotation t). Proof. apply (@gate_like_pure 1); [apply XRot_on|auto|flag]. Qed.
Lemma ZRot_like t : gate_like (ZRotation t). Proof. apply (@gate_like_ctrl 1); [apply ZRot_on|auto|flag]. Qed.
Lemma ZZRot_like t : gate_like (ZZRotation t). Proof. apply (@gate_like_ctrl 2); [apply ZZRot_on|auto|flag]. Qed.

(** the Half gates: square roots with the global phase e^{i pi/4} *)
Definition half (P : mat CK) : mat CK := fun o i => cr (1 / 2) * ((1 + ci) * mone o i + (1 + - ci) * P o i).
Lemma XHalf_mat : has_matrix XHalfGate 1 (half pauli_x).
Proof. apply (gate_mat XHalf_on). entries. Qed.
Lemma YHalf_mat : has_matrix YHalfGate 1 (half pauli_y).
Proof. apply (gate_mat YHalf_on). entries. Qed.

(** ** unitary *)
Lemma m22_unitary (A : mat CK) :
  (forall o i, bits 1 o -> bits 1 i -> mmul 1 (madj A) A o i = mone o i) ->
  (forall o i, bits 1 o -> bits 1 i -> mmul 1 A (madj A) o i = mone o i) -> munitary 1 A.
Proof. intros H1 H2. split; intros o i Bo Bi; auto. Qed.
Definition involution n (P : mat CK) : Prop := meq n (mmul n P P) mone.
Definition hermitian n (P : mat CK) : Prop := meq n (madj P) P.
Lemma involution_unitary n P : involution n P -> hermitian n P -> munitary n P.
Proof.
  intros I H. split; (eapply meq_trans; [apply mmul_ext; [first [exact H|apply meq_refl]|first [exact H|apply meq_refl]]|exact I]).
Qed.
Ltac both := split; entries.
Lemma x_inv : involution 1 pauli_x /\ hermitian 1 pauli_x. Proof. both. Qed.
Lemma y_inv : involution 1 pauli_y /\ hermitian 1 pauli_y. Proof. both. Qed.
Lemma z_inv : involution 1 pauli_z /\ hermitian 1 pauli_z. Proof. both. Qed.
Lemma h_inv : involution 1 hadamard /\ hermitian 1 hadamard.
Proof.
  split; [|entries]. intros o i Bo Bi; bit_cases; eval_entry; ck.
  all: try ring; assert (E : (/ sqrt 2 * / sqrt 2 = / 2)%R) by (rewrite <- Rinv_mult, sqrt_sqrt by lra; auto); ring_simplify; rewrite ?E; try lra.
  all: replace (/ sqrt 2 ^ 2)%R with (/ sqrt 2 * / sqrt 2)%R by (simpl; ring).
Qed.
Lemma kron_inv m n P Q : involution m P /\ hermitian m P -> involution n Q /\ hermitian n Q ->
  involution (m + n) (mkron m P Q) /\ hermitian (m + n) (mkron m P Q).
Proof.
  intros [I H] [J G]. split.
  - eapply meq_trans; [apply kron_mul|]. eapply meq_trans; [apply mkron_ext; eauto|apply kron_one].
  - eapply meq_trans; [apply kron_adj|]. apply mkron_ext; auto.
Qed.
Lemma swap_inv : involution 2 mswap /\ hermitian 2 mswap. Proof. both. Qed.
Lemma phase_unitary x : munitary 1 (phase x).
Proof.
  assert (E : (cos x * cos x + sin x * sin x = 1)%R) by (pose proof (sin2_cos2 x) as E; unfold Rsqr in E; lra).
  split; intros o i Bo Bi; bit_cases; eval_entry; ck; try ring; ring_simplify; simpl; lra.
Qed.
Lemma half_unitary n P : involution n P -> hermitian n P -> munitary n (half P).
Proof.
  intros I H.
  assert (A : meq n (madj (half P)) (fun o i => cr (1 / 2) * ((1 + - ci) * mone o i + (1 + ci) * P o i))).
  { intros o i Bo Bi. unfold madj, half. rewrite <- (H o i Bo Bi). unfold madj.
    assert (E : mone (S := CK) i o = mone o i) by (unfold mone; rewrite eqb_sym; auto). rewrite E.
    assert (E' : kconj (mone (S := CK) o i) = mone o i) by (unfold mone; apply kconj_delta). rewrite kconj_mul, kconj_add, !kconj_mul, E'.
    generalize (mone (S := CK) o i), (kconj (P i o)). intros [x1 x2] [y1 y2]. ck; ring. }
  assert (M : forall a b c d, meq n (mmul n (fun o i => a * mone o i + b * P o i) (fun o i => c * mone o i + d * P o i))
      (fun o i => (a * c + b * d) * mone o i + (a * d + b * c) * P o i)).
  { intros a b c d o i Bo Bi. unfold mmul.
    rewrite (sumf_ext _ (fun m => kdelta (eqb o m) * (a * (c * mone m i + d * P m i)) + (kdelta (eqb m i) * (b * c * P o m) + b * d * (P o m * P m i)))).
    2:{ intros m _. unfold mone. ring. }
    rewrite !sumf_add, pin_l, pin_r by auto. rewrite sumf_mul_l.
    change (sumf (fun m => P o m * P m i) (words2 n)) with (mmul n P P o i). rewrite (I o i Bo Bi). unfold mone. ring. }
  assert (Hf : meq n (half P) (fun o i => (cr (1 / 2) * (1 + ci)) * mone o i + (cr (1 / 2) * (1 + - ci)) * P o i))
    by (intros o i _ _; unfold half; ring).
  assert (A' : meq n (madj (half P)) (fun o i => (cr (1 / 2) * (1 + - ci)) * mone o i + (cr (1 / 2) * (1 + ci)) * P o i)).
  { eapply meq_trans; [exact A|]. intros o i _ _. ring. }
  split; (eapply meq_trans; [apply mmul_ext; eassumption|]; eapply meq_trans; [apply M|]); intros o i _ _;
    generalize (mone (S := CK) o i), (P o i); intros [x1 x2] [y1 y2]; ck; field.
Qed.
Lemma scale_unitary n c (A : mat CK) : kconj c * c = 1 -> munitary n A -> munitary n (mscale c A).
Proof.
  intros E [U V].
  assert (E' : c * kconj c = 1) by (rewrite <- E; ring).
  split; intros o i Bo Bi.
  - rewrite <- (U o i Bo Bi). unfold mmul, mscale, madj. apply sumf_ext. intros m _. rewrite kconj_mul.
    transitivity ((kconj c * c) * (kconj (A m o) * A m i)); [ring|rewrite E; ring].
  - rewrite <- (V o i Bo Bi). unfold mmul, mscale, madj. apply sumf_ext. intros m _. rewrite kconj_mul.
    transitivity ((c * kconj c) * (A o m * kconj (A i m))); [ring|rewrite E'; ring].
Qed.

(** ** composition *)
Lemma gate_width n (x : op CK) : gate_on n x -> width (EGate x) = n.
Proof. intros (_ & _ & _ & sh & E & L & _). simpl. rewrite E. auto. Qed.
Lemma has_den n (x : op CK) A : has_matrix x n A -> width (EGate x) = n -> meq n (den (EGate x)) A.
Proof. intros (v & E & _ & V) _ o i Bo Bi. simpl. rewrite E. auto. Qed.
Lemma expr_has (e : expr CK) A : good e -> meq (width e) (den e) A -> exists x, eval e = Ok x /\ has_matrix x (width e) A.
Proof.
  intros G M. destruct (expr_ok e G) as (x & E & L & _ & Mx & _). exists x. split; auto. eapply has_eq; [apply lined_has; eauto|].
  eapply meq_trans; eauto.
Qed.
Lemma seq_has n (a b : op CK) A B : gate_like a -> gate_like b -> gate_on n a -> gate_on n b -> has_matrix a n A -> has_matrix b n B ->
  exists r, op_or a b = Ok r /\ has_matrix r n (mmul n B A).
Proof.
  intros La Lb Ga Gb Ma Mb. pose proof (gate_width Ga) as Wa. pose proof (gate_width Gb) as Wb.
  destruct (@expr_has (ESeq (EGate a) (EGate b)) (mmul n B A)) as (x & E & H).
  - simpl in *. split; auto. split; auto. congruence.
  - cbn [width den]. cbn [width] in Wa. rewrite Wa. apply mmul_ext; apply has_den; auto.
  - cbn [eval bind] in E. exists x. split; auto. cbn [width] in *. rewrite Wa in H. auto.
Qed.
Lemma adj_has n (a : op CK) A : gate_like a -> gate_on n a -> has_matrix a n A -> exists r, adj a = Ok r /\ has_matrix r n (madj A).
Proof.
  intros La Ga Ma. pose proof (gate_width Ga) as Wa.
  destruct (@expr_has (EAdj (EGate a)) (madj A)) as (x & E & H).
  - simpl; auto.
  - cbn [width den]. cbn [width] in Wa. rewrite Wa. apply madj_ext, has_den; auto.
  - cbn [eval bind] in E. exists x. split; auto. cbn [width] in *. rewrite Wa in H. auto.
Qed.
Lemma ctrl_has n cond (a : op CK) A : gate_like a -> gate_on n a -> has_matrix a n A -> exists r, controlled cond a = Ok r /\ has_matrix r (Datatypes.S n) (mctrl cond A).
Proof.
  intros La Ga Ma. pose proof (gate_width Ga) as Wa.
  destruct (@expr_has (ECtrl cond (EGate a)) (mctrl cond A)) as (x & E & H).
  - simpl; auto.
  - cbn [width den]. cbn [width] in Wa. rewrite Wa. apply mctrl_ext, has_den; auto.
  - cbn [eval bind] in E. exists x. split; auto. cbn [width] in *. rewrite Wa in H. auto.
Qed.
Lemma par_has m n (a b : op CK) A B : gate_like a -> gate_like b -> gate_on m a -> gate_on n b -> has_matrix a m A -> has_matrix b n B ->
  exists r, op_mul a b = Ok r /\ has_matrix r (m + n) (mkron m A B).
Proof.
  intros La Lb Ga Gb Ma Mb. pose proof (gate_width Ga) as Wa. pose proof (gate_width Gb) as Wb.
  destruct (@expr_has (EPar (EGate a) (EGate b)) (mkron m A B)) as (x & E & H).
  - simpl in *. split; auto.
  - cbn [width den]. cbn [width] in Wa, Wb. rewrite Wa, Wb. apply mkron_ext; apply has_den; auto.
  - cbn [eval bind] in E. exists x. split; auto. cbn [width] in *. rewrite Wa, Wb in H. auto.
Qed.

(** ** XXRotation *)
Lemma unitary_positions sh p : forallb role_unitary sh = true -> (forall r, role_unitary r = true -> p r = true) -> positions p sh = seq 0 (length sh).
Proof.
  intros U H. unfold positions. generalize 0%nat as k. induction sh as [|r sh IH]; intros k; simpl in *; auto.
  apply andb_prop in U as [U1 U2]. rewrite (H r U1). simpl. f_equal. apply IH; auto.
Qed.
Lemma super_lined n (l : list (CK * op CK)) : l <> [] -> (forall c a, In (c, a) l -> lined n a) -> lined n (OSuper l).
Proof.
  intros Ne H.
  assert (W : op_wf (OSuper l)).
  { apply wf_super with (ins := seq 0 n) (outs := seq 0 n); auto.
    - intros c a I. apply (H c a I).
    - intros c a I. apply (H c a I).
    - intros c a I. destruct (H c a I) as (_ & _ & (sh & E & L & U) & _). exists sh. split; auto.
      rewrite !unitary_positions, L; auto using unitary_in, unitary_out. }
  split; auto. destruct l as [|[c a] l]; [congruence|].
  assert (P : op_pure (OSuper ((c, a) :: l)) = Ok true).
  { simpl. reflexivity. }
  split; auto. split; auto. destruct (H c a) as (_ & _ & (sh & E & L & U) & _); [simpl; auto|]. exists (map uncontrol sh).
  simpl. rewrite E. simpl. rewrite map_length. split; auto. split; auto. clear -U. induction sh as [|r sh IH]; simpl in *; auto.
  apply andb_prop in U as [U1 U2]. rewrite IH by auto. destruct (unitary_eq _ U1) as [-> | ->]; auto.
Qed.
Lemma gate_lined n (x : op CK) : gate_on n x -> lined n x.
Proof. intros (W & P & N & H). split; auto. split; auto. split; auto. destruct x; auto. destruct (N c); auto. Qed.
Lemma XX_ok t : exists x, XXRotation t = Ok x /\ gate_like x /\ gate_on 2 x /\ has_matrix x 2 (mexp t (mkron 1 pauli_x pauli_x)).
Proof.
  destruct (par_ok (gate_lined I_on) (gate_lined I_on)) as (a & Ea & La & Ma & Ra & _); auto.
  destruct (par_ok (gate_lined X_on) (gate_lined X_on)) as (b & Eb & Lb & Mb & Rb & _); auto.
  unfold XXRotation. rewrite Ea, Eb. cbn [bind]. set (x := OSuper _). exists x. split; auto.
  assert (L : lined 2 x).
  { apply super_lined; [discriminate|]. intros c y [E|[E|[]]]; inversion E; subst; auto. }
  assert (G : gate_on 2 x) by (destruct L as (W & P & H & _); split; auto; split; auto; split; auto; discriminate).
  assert (R : reversible x).
  { constructor. intros c y [E|[E|[]]]; inversion E; subst; [apply Ra|apply Rb]; first [apply I_like|apply X_like]. }
  split; [|split; auto].
  - destruct G as (W & P & N & sh & E & Ls & U). split; auto. split; auto. split; auto. split; auto. exists sh. split; auto. split; auto.
    intros ->. discriminate.
  - eapply has_eq; [apply lined_has; exact L|]. intros o i Bo Bi. unfold x. cbn [op_amp].
    change (cr (cos t) * op_amp (OCirc a) o i + (cr (sin t) * ci * op_amp (OCirc b) o i + 0) = mexp t (mkron 1 pauli_x pauli_x) o i).
    rewrite (Ma o i Bo Bi), (Mb o i Bo Bi). destruct I_mat as (vi & Evi & _ & Vi). destruct X_mat as (vx & Evx & _ & Vx).
    assert (A1 : meq 1 (op_amp IGate) mone) by (apply (has_unique (gate_has I_on) I_mat)).
    assert (A2 : meq 1 (op_amp XGate) pauli_x) by (apply (has_unique (gate_has X_on) X_mat)).
    pose proof (@mkron_ext CK 1 1 _ _ _ _ A1 A1 o i Bo Bi) as K1. pose proof (@mkron_ext CK 1 1 _ _ _ _ A2 A2 o i Bo Bi) as K2.
    rewrite K1, K2. pose proof (@kron_one CK 1 1 o i Bo Bi) as K3. rewrite K3. unfold mexp. ring.
Qed.
