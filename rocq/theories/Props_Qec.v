(** * C63: the noise of demo/QEC is physical

    [IdleGate], [NoisyHGate], [cz_gate] and [lamda] are in ModelQec.v; [has_channel], [kraus], [preserves_trace], [chan_apply] in NoiseSpec.v. *)
From Coq Require Import Reals Lra Lia.
From Verif Require Import Base Scalar NetSpec Sums NetAlg ModelArray ModelTN ModelVal ModelOps OpsSpec OpsValue ModelContract CircSpec CircOrder ModelCircuit CircSem
  CircShape CircCtrl CircOp CircMain CircBuild CircAdj CircUse CircMul DensSpec CircDens CircDensOp CircPure MatSpec MatProofs ExprSpec CircExpr Complex GateSpec ModelGates GateProofs
  NoiseSpec ChanTrace ChanCirc Props_Gates Props_Noise ModelQec.
Set Implicit Arguments.
Local Open Scope K_scope.
Add Ring CKring_qec : (kring CK).

(** two operations on one qubit, one after the other *)
Section Two.
  Variable S : scalar.
  Add Ring Sring : (kring S).
  Variables A B : chan S.
  Definition two_circ : circ (list role * chan S) := [(NT [NI 0; NT [NI 0]], Gate 0%Z [NI 0] ([RW [LI; LO]], A)); (NT [NI 1; NT [NI 0]], Gate 1%Z [NI 0] ([RW [LI; LO]], B))].
  Lemma two_chan o i o' i' : bits 1 o -> bits 1 i -> bits 1 o' -> bits 1 i' ->
    circ_chan two_circ o i o' i' = sumf (fun z => sumf (fun z' => B o z o' z' * A z i z' i') (words2 1)) (words2 1).
  Proof. intros. bit_cases; lazy -[K k0 k1 kadd kmul kopp kconj]; ring. Qed.
End Two.

(** the fraction of the excited state that survives; the further loss of coherence *)
Definition survival (d : R) (p : qparams) : R := exp (- d * T_1_inv p).
Definition coherence (d : R) (p : qparams) (ts : option times) : R :=
  (exp (- d * T_phi_inv p) * match ts with Some ts => lamda p ts | None => 1 end)%R.
Definition idle_op (a b x : R) : op CK := Channel 1 (qarr 4 (map cr [1; 0; 0; x; 0; 1 - a; 0; 0; 0; 0; 0; 0; x; 0; 0; b]%R)).
Lemma idle_is d p ts : IdleGate d p ts = idle_op (survival d p) (survival d p) (sqrt (survival d p * coherence d p ts)).
Proof. unfold IdleGate, idle_op, coherence, survival. destruct ts as [ts|]; [reflexivity|]. rewrite Rmult_1_r. reflexivity. Qed.
Lemma idle_entries a x : has_channel (idle_op a a x) 1 1 (fun o i o' i' =>
  match o, i, o', i' with
  | [0], [0], [0], [0] => cr 1 | [0], [0], [1], [1] => cr x | [1], [1], [0], [0] => cr x | [1], [1], [1], [1] => cr a | [0], [1], [0], [1] => cr (1 - a)
  | _, _, _, _ => cr 0 end)%nat.
Proof. unfold idle_op. chan_tac; reflexivity. Qed.
Lemma survival_pos d p : (0 < survival d p)%R. Proof. apply exp_pos. Qed.
Lemma survival_le d p : (0 <= d -> 0 <= T_1_inv p -> survival d p <= 1)%R.
Proof.
  intros H1 H2. unfold survival. rewrite <- exp_0. destruct (Req_dec (d * T_1_inv p) 0) as [E|E].
  - right. f_equal. lra.
  - left. apply exp_increasing. assert (0 <= d * T_1_inv p)%R by (apply Rmult_le_pos; auto). lra.
Qed.
Lemma coherence_pos d p ts : (0 < coherence d p ts)%R.
Proof. unfold coherence. apply Rmult_lt_0_compat; [apply exp_pos|]. destruct ts; [apply exp_pos|lra]. Qed.

(** Idling for a time d preserves the trace.  The population of 1 decays with rate 1/T_1 to 0, the coherences with rate (1/T_1 + 1/T_phi)/2. *)
Theorem C63_idle (d : R) (p : qparams) : exists v, tensor_density (IdleGate d p None) = Ok v /\ preserves_trace (IdleGate d p None) /\
  forall rho : mat CK, let rho' := chan_apply 1 (entries_of v) rho in
    rho' [1%nat] [1%nat] = cr (exp (- d * T_1_inv p)) * rho [1%nat] [1%nat] /\
    rho' [0%nat] [0%nat] = rho [0%nat] [0%nat] + cr (1 - exp (- d * T_1_inv p)) * rho [1%nat] [1%nat] /\
    rho' [0%nat] [1%nat] = cr (exp (- d * (T_1_inv p + T_phi_inv p) / 2)) * rho [0%nat] [1%nat] /\
    rho' [1%nat] [0%nat] = cr (exp (- d * (T_1_inv p + T_phi_inv p) / 2)) * rho [1%nat] [0%nat].
Proof.
  assert (E : sqrt (survival d p * coherence d p None) = exp (- d * (T_1_inv p + T_phi_inv p) / 2)).
  { unfold survival, coherence. rewrite Rmult_1_r, <- exp_plus. symmetry. replace (- d * T_1_inv p + - d * T_phi_inv p)%R with (- d * (T_1_inv p + T_phi_inv p) / 2 + - d * (T_1_inv p + T_phi_inv p) / 2)%R by field.
    rewrite exp_plus. rewrite sqrt_square; auto. left. apply exp_pos. }
  rewrite idle_is, E. change (exp (- d * T_1_inv p)) with (survival d p). generalize (exp (- d * (T_1_inv p + T_phi_inv p) / 2)), (survival d p). clear E. intros x a.
  destruct (idle_entries a x) as (v & Ev & Sv & V). exists v. split; auto. split.
  - unfold idle_op. apply channel_preserves. intros i i' Bi Bi'. bit_cases; eval_entry; ck; ring.
  - intros rho. cbn zeta. unfold chan_apply. change (words2 1) with [[0%nat]; [1%nat]]. cbn [sumf fold_right map].
    repeat split; rewrite !V by (split; auto; repeat constructor; lia); ck; ring.
Qed.
Print Assumptions C63_idle.

(** Idling for d1 and then for d2 is idling for d1 + d2. *)
Theorem C63_additive (d1 d2 : R) (p : qparams) : exists v1 v2 v, tensor_density (IdleGate d1 p None) = Ok v1 /\ tensor_density (IdleGate d2 p None) = Ok v2 /\
  tensor_density (IdleGate (d1 + d2) p None) = Ok v /\
  forall rho, meq 1 (chan_apply 1 (entries_of v2) (chan_apply 1 (entries_of v1) rho)) (chan_apply 1 (entries_of v) rho).
Proof.
  destruct (C63_idle d1 p) as (v1 & E1 & _ & H1). destruct (C63_idle d2 p) as (v2 & E2 & _ & H2). destruct (C63_idle (d1 + d2) p) as (v & E & _ & H).
  exists v1, v2, v. do 3 (split; auto). intros rho. destruct (H1 rho) as (A1 & A2 & A3 & A4). destruct (H2 (chan_apply 1 (entries_of v1) rho)) as (B1 & B2 & B3 & B4). destruct (H rho) as (D1 & D2 & D3 & D4).
  assert (X1 : exp (- (d1 + d2) * T_1_inv p) = (exp (- d2 * T_1_inv p) * exp (- d1 * T_1_inv p))%R) by (rewrite <- exp_plus; f_equal; ring).
  assert (X2 : exp (- (d1 + d2) * (T_1_inv p + T_phi_inv p) / 2) = (exp (- d2 * (T_1_inv p + T_phi_inv p) / 2) * exp (- d1 * (T_1_inv p + T_phi_inv p) / 2))%R) by (rewrite <- exp_plus; f_equal; field).
  intros o i Bo Bi. bit_cases; rewrite ?B1, ?B2, ?B3, ?B4, ?D1, ?D2, ?D3, ?D4, ?A1, ?A2, ?A3, ?A4, ?X1, ?X2.
  all: generalize (exp (- d2 * T_1_inv p)), (exp (- d1 * T_1_inv p)), (exp (- d2 * (T_1_inv p + T_phi_inv p) / 2)), (exp (- d1 * (T_1_inv p + T_phi_inv p) / 2)); intros; ck; ring.
Qed.
Print Assumptions C63_additive.

Section Lamda.
Local Open Scope R_scope.
(** The factor for the time after a measurement is exp(-2 chi alpha e^(-kappa Dt) I), where I is the integral of e^(-kappa t) sin(2 chi t)
    from start to end: the difference of any antiderivative. *)
Theorem C63_lamda (p : qparams) (ts : times) (F : R -> R) : (chi p <> 0 \/ kappa p <> 0)%R ->
  (forall t, derivable_pt_lim F t (exp (- kappa p * t) * sin (2 * chi p * t)))%R ->
  lamda p ts = exp (- (2 * chi p * alpha0 p * exp (- kappa p * t_Dt ts)) * (F (t_end ts) - F (t_start ts))).
Proof.
  intros N DF. unfold lamda. f_equal. f_equal. set (k := kappa p) in *. set (c := chi p) in *.
  assert (Nz : (4 * c ^ 2 + k ^ 2 <> 0)%R) by (intros E; assert (0 <= c ^ 2 /\ 0 <= k ^ 2)%R by (split; apply pow2_ge_0); assert (c ^ 2 = 0 /\ k ^ 2 = 0)%R by lra; destruct N as [N|N]; apply N; nra).
  set (G := fun t => (- exp (- k * t) / (4 * c ^ 2 + k ^ 2) * (k * sin (2 * c * t) + 2 * c * cos (2 * c * t)))%R).
  change (G (t_end ts) - G (t_start ts) = F (t_end ts) - F (t_start ts))%R.
  assert (DG : forall t, derivable_pt_lim G t (exp (- k * t) * sin (2 * c * t))).
  { intros t. unfold G.
    assert (L1 : derivable_pt_lim (fun t => - k * t)%R t (- k)).
    { pose proof (derivable_pt_lim_scal id (- k) t 1 (derivable_pt_lim_id t)) as X. rewrite Rmult_1_r in X. exact X. }
    assert (L2 : derivable_pt_lim (fun t => 2 * c * t)%R t (2 * c)).
    { pose proof (derivable_pt_lim_scal id (2 * c) t 1 (derivable_pt_lim_id t)) as X. rewrite Rmult_1_r in X. exact X. }
    assert (Le : derivable_pt_lim (fun t => exp (- k * t)) t (exp (- k * t) * - k)) by exact (derivable_pt_lim_comp _ _ _ _ _ L1 (derivable_pt_lim_exp (- k * t))).
    assert (Ls : derivable_pt_lim (fun t => sin (2 * c * t)) t (cos (2 * c * t) * (2 * c))) by exact (derivable_pt_lim_comp _ _ _ _ _ L2 (derivable_pt_lim_sin (2 * c * t))).
    assert (Lc : derivable_pt_lim (fun t => cos (2 * c * t)) t (- sin (2 * c * t) * (2 * c))) by exact (derivable_pt_lim_comp _ _ _ _ _ L2 (derivable_pt_lim_cos (2 * c * t))).
    assert (Lf : derivable_pt_lim (fun t => - / (4 * c ^ 2 + k ^ 2) * exp (- k * t))%R t (- / (4 * c ^ 2 + k ^ 2) * (exp (- k * t) * - k))) by exact (derivable_pt_lim_scal _ _ _ _ Le).
    assert (Lg : derivable_pt_lim (fun t => k * sin (2 * c * t) + 2 * c * cos (2 * c * t))%R t (k * (cos (2 * c * t) * (2 * c)) + 2 * c * (- sin (2 * c * t) * (2 * c)))).
    { exact (derivable_pt_lim_plus _ _ _ _ _ (derivable_pt_lim_scal _ _ _ _ Ls) (derivable_pt_lim_scal _ _ _ _ Lc)). }
    pose proof (derivable_pt_lim_mult _ _ _ _ _ Lf Lg) as L. unfold mult_fct in L.
    assert (Ev : forall x l l', derivable_pt_lim (fun t => - / (4 * c ^ 2 + k ^ 2) * exp (- k * t) * (k * sin (2 * c * t) + 2 * c * cos (2 * c * t)))%R x l -> l = l' ->
      derivable_pt_lim (fun t => - exp (- k * t) / (4 * c ^ 2 + k ^ 2) * (k * sin (2 * c * t) + 2 * c * cos (2 * c * t)))%R x l').
    { intros x l l' H <- e He. destruct (H e He) as [de Hd]. exists de. intros h Hh Hb. specialize (Hd h Hh Hb).
      replace (- exp (- k * (x + h)) / (4 * c ^ 2 + k ^ 2))%R with (- / (4 * c ^ 2 + k ^ 2) * exp (- k * (x + h)))%R by (unfold Rdiv; ring).
      replace (- exp (- k * x) / (4 * c ^ 2 + k ^ 2))%R with (- / (4 * c ^ 2 + k ^ 2) * exp (- k * x))%R by (unfold Rdiv; ring). exact Hd. }
    apply (Ev _ _ _ L). field. auto. }
  assert (D0 : forall t, derivable_pt_lim (F - G)%F t 0).
  { intros t. replace 0%R with (exp (- k * t) * sin (2 * c * t) - exp (- k * t) * sin (2 * c * t))%R by ring. apply derivable_pt_lim_minus; auto. }
  assert (Cn : constant (F - G)%F).
  { apply (null_derivative_1 (F - G)%F (fun t => exist _ 0%R (D0 t))). intros t. apply derive_pt_eq_0. apply D0. }
  specialize (Cn (t_end ts) (t_start ts)). unfold minus_fct in Cn. lra.
Qed.
End Lamda.
Print Assumptions C63_lamda.

(** Idling is given by Kraus operators exactly when the factor on the coherences is at most 1. *)
Lemma sumf_nonneg (f : mat CK -> CK) l : (forall K, In K l -> exists r, (0 <= r)%R /\ f K = cr r) -> exists r, (0 <= r)%R /\ sumf f l = cr r.
Proof.
  induction l as [|K l IH]; intros H; [exists 0%R; split; [lra|reflexivity]|]. destruct (H K) as (r & Hr & Er); [simpl; auto|]. destruct IH as (s & Hs & Es); [intros; apply H; simpl; auto|].
  exists (r + s)%R. split; [lra|]. cbn [sumf fold_right map]. change (f K + sumf f l = cr (r + s)). rewrite Er, Es. ck; ring.
Qed.
Theorem C63_kraus (d : R) (p : qparams) (ts : option times) : (0 <= d -> 0 <= T_1_inv p ->
  (coherence d p ts <= 1 -> has_channel (IdleGate d p ts) 1 1 (kraus
     [m22 1 0 0 (cr (sqrt (survival d p * coherence d p ts))); m22 0 0 0 (cr (sqrt (survival d p * (1 - coherence d p ts)))); m22 0 (cr (sqrt (1 - survival d p))) 0 0])) /\
  ((exists Ks, has_kraus (IdleGate d p ts) Ks) <-> coherence d p ts <= 1) /\ preserves_trace (IdleGate d p ts))%R.
Proof.
  intros Hd H1. pose proof (survival_pos d p) as Sp. pose proof (survival_le p Hd H1) as Sl. pose proof (coherence_pos d p ts) as Cp.
  rewrite idle_is. revert Sp Sl Cp. generalize (survival d p), (coherence d p ts). clear. intros a w Ap Al Wp.
  assert (Kr : (w <= 1)%R -> has_channel (idle_op a a (sqrt (a * w))) 1 1 (kraus [m22 1 0 0 (cr (sqrt (a * w))); m22 0 0 0 (cr (sqrt (a * (1 - w)))); m22 0 (cr (sqrt (1 - a))) 0 0])).
  { intros Wl. assert (E0 := sqrt_sqrt (a * w) ltac:(nra)). assert (E1 := sqrt_sqrt (a * (1 - w)) ltac:(nra)). assert (E2 := sqrt_sqrt (1 - a) ltac:(lra)).
    revert E0 E1 E2. generalize (sqrt (a * w)), (sqrt (a * (1 - w))), (sqrt (1 - a)). intros x y z E0 E1 E2. unfold idle_op. chan_tac. all: ck. all: nra. }
  split; [exact Kr|]. split.
  - split.
    + intros (Ks & sh & Es & v & Ev & _ & V). injection Es as <-. destruct (idle_entries a (sqrt (a * w))) as (v' & Ev' & _ & V'). rewrite Ev in Ev'. injection Ev' as <-.
      set (x := sqrt a). assert (Ex : (x * x = a)%R) by (apply sqrt_sqrt; lra). assert (Xp : (0 < x)%R) by (apply sqrt_lt_R0; lra).
      set (y := sqrt w). assert (Ey : (y * y = w)%R) by (apply sqrt_sqrt; lra). assert (Yp : (0 < y)%R) by (apply sqrt_lt_R0; lra).
      assert (Exy : sqrt (a * w) = (x * y)%R) by (apply sqrt_mult; lra).
      destruct (@sumf_nonneg (fun K => (cr x * K [0%nat] [0%nat] + - K [1%nat] [1%nat]) * kconj (cr x * K [0%nat] [0%nat] + - K [1%nat] [1%nat])) Ks) as (r & Hr & Er).
      { intros K _. destruct (cr x * K [0%nat] [0%nat] + - K [1%nat] [1%nat]) as [re im]. exists (re * re + im * im)%R. split; [nra|]. ck; ring. }
      assert (B : forall b, (b < 2)%nat -> bits 1 [b]) by (intros b L; split; auto).
      assert (Q : forall i j, (i < 2)%nat -> (j < 2)%nat -> entries_of v [i] [i] [j] [j] = sumf (fun K => K [i] [i] * kconj (K [j] [j])) Ks) by (intros i j Li Lj; apply (V [i] [i] [j] [j]); apply B; auto).
      assert (X : sumf (fun K => (cr x * K [0%nat] [0%nat] + - K [1%nat] [1%nat]) * kconj (cr x * K [0%nat] [0%nat] + - K [1%nat] [1%nat])) Ks =
        cr (x * x) * entries_of v [0%nat] [0%nat] [0%nat] [0%nat] + entries_of v [1%nat] [1%nat] [1%nat] [1%nat] + - cr x * entries_of v [0%nat] [0%nat] [1%nat] [1%nat] + - cr x * entries_of v [1%nat] [1%nat] [0%nat] [0%nat]).
      { rewrite !Q by lia. clear. induction Ks as [|K Ks IH]; cbn [sumf fold_right map]; [ck; ring|].
        match goal with |- _ + ?t = _ => change t with (sumf (fun K => (cr x * K [0%nat] [0%nat] + - K [1%nat] [1%nat]) * kconj (cr x * K [0%nat] [0%nat] + - K [1%nat] [1%nat])) Ks) end.
        rewrite IH. change (fold_right kadd k0) with (fold_right (@kadd CK) k0). 
        destruct (K [0%nat] [0%nat]) as [a1 a2], (K [1%nat] [1%nat]) as [b1 b2].
        repeat match goal with |- context [sumf ?f Ks] => generalize (sumf f Ks); intros [? ?] end. ck; ring. }
      pose proof (eq_trans (eq_sym Er) X) as Z. clear X. rename Z into X. rewrite !V' in X by (apply B; lia). rewrite Exy in X. apply (f_equal fst) in X. cbn in X. assert (Yl : (y <= 1)%R); [|nra].
      assert (0 <= 2 * a * (1 - y))%R by nra. nra.
    + intros Wl. eexists. exists [RW [LI; LO]]. split; [reflexivity|]. exact (Kr Wl).
  - unfold idle_op. apply channel_preserves. intros i i' Bi Bi'. bit_cases; eval_entry; ck; ring.
Qed.
Print Assumptions C63_kraus.

(** With T_phi_inv = 0 and other parameters positive or zero the factor can be larger than 1: the gate is then no channel. *)
Theorem C63_unphysical_refuted : exists (d : R) (p : qparams) (ts : times),
  (0 <= d /\ 0 <= T_1_inv p /\ 0 <= T_phi_inv p /\ 0 < alpha0 p /\ 0 < kappa p /\ 0 < chi p /\ 0 <= t_start ts <= t_end ts /\ 0 <= t_Dt ts /\ d = t_end ts - t_start ts)%R /\
  ~ exists Ks, has_kraus (IdleGate d p (Some ts)) Ks.
Proof.
  exists PI, (QParams 0 0 0 0 1 1 (1 / 2)), (Times PI (2 * PI) 0). pose proof PI_RGT_0 as Pp. cbn [T_1_inv T_phi_inv alpha0 kappa chi t_start t_end t_Dt].
  split; [repeat split; lra|]. intros H. apply (@C63_kraus PI (QParams 0 0 0 0 1 1 (1 / 2)) (Some (Times PI (2 * PI) 0))) in H; [|lra|cbn; lra].
  revert H. apply Rlt_not_le. unfold coherence, lamda. cbn [T_1_inv T_phi_inv alpha0 kappa chi t_start t_end t_Dt].
  replace (- PI * 0)%R with 0%R by ring. rewrite exp_0, Rmult_1_l. match goal with |- (1 < exp ?t)%R => enough (X : (0 < t)%R) by (apply exp_increasing in X; rewrite exp_0 in X; exact X) end.
  replace (2 * (1 / 2) * (2 * PI))%R with (2 * PI)%R by field. replace (2 * (1 / 2) * PI)%R with PI by field. rewrite sin_2PI, cos_2PI, sin_PI, cos_PI.
  replace (- (1) * 0)%R with 0%R by ring. rewrite exp_0. pose proof (exp_pos (- (1) * (2 * PI))) as E1. pose proof (exp_pos (- (1) * PI)) as E2. revert E1 E2. generalize (exp (- (1) * (2 * PI))), (exp (- (1) * PI)). intros u v Hu Hv.
  replace (- (2 * (1 / 2) * 1 * 1) * (- u / (4 * (1 / 2) ^ 2 + 1 ^ 2) * (1 * 0 + 2 * (1 / 2) * 1) - - v / (4 * (1 / 2) ^ 2 + 1 ^ 2) * (1 * 0 + 2 * (1 / 2) * -1)))%R with ((u + v) / 2)%R by field. lra.
Qed.
Print Assumptions C63_unphysical_refuted.

(** A noisy Hadamard gate is a Hadamard gate followed by X, Y, Z with the probabilities p_axis/4, p_plane/2 - p_axis/4, p_axis/4. *)
Lemma noisy_h p : NoisyHGate (Some p) = Ok (OCirc [(NT [NI 0; NT [NI 0]], Gate 0%Z [NI 0] HGate);
  (NT [NI 1; NT [NI 0]], Gate 1%Z [NI 0] (Depolarization (p_axis p / 4) (Some (p_plane p / 2 - p_axis p / 4)%R) (Some (p_axis p / 4)%R)))]).
Proof. reflexivity. Qed.
Lemma noisy_wf p : match NoisyHGate (Some p) with Ok x => op_wf x /\ no_super x | Err _ => False end.
Proof.
  rewrite noisy_h. split.
  - constructor.
    + repeat constructor; simpl; intuition discriminate.
    + intros k g [E|[E|[]]]; injection E as <- <-; [apply H_on|apply channel_wf].
    + intros k g [E|[E|[]]]; injection E as <- <-; (split; [repeat constructor; simpl; tauto|reflexivity]).
  - constructor; intros k g [E|[E|[]]]; injection E as <- <-; constructor.
Qed.
Theorem C63_hadamard (p : qparams) : (0 <= p_axis p -> p_axis p <= 2 * p_plane p -> p_axis p + 2 * p_plane p <= 4 ->
  exists x, NoisyHGate (Some p) = Ok x /\ preserves_trace x /\ has_channel x 1 1 (kraus (map (fun A => mmul 1 A hadamard)
    [mscale (cr (sqrt (1 - p_plane p / 2 - p_axis p / 4))) mone; mscale (cr (sqrt (p_axis p / 4))) pauli_x;
     mscale (cr (sqrt (p_plane p / 2 - p_axis p / 4))) pauli_y; mscale (cr (sqrt (p_axis p / 4))) pauli_z])))%R.
Proof.
  intros H1 H2 H3. eexists. split; [apply noisy_h|].
  set (D := Depolarization (p_axis p / 4) (Some (p_plane p / 2 - p_axis p / 4)%R) (Some (p_axis p / 4)%R)).
  assert (Hd : has_channel D 1 1 (kraus [mscale (cr (sqrt (1 - p_plane p / 2 - p_axis p / 4))) mone; mscale (cr (sqrt (p_axis p / 4))) pauli_x;
     mscale (cr (sqrt (p_plane p / 2 - p_axis p / 4))) pauli_y; mscale (cr (sqrt (p_axis p / 4))) pauli_z])).
  { replace (1 - p_plane p / 2 - p_axis p / 4)%R with (1 - p_axis p / 4 - (p_plane p / 2 - p_axis p / 4) - p_axis p / 4)%R by field. apply C41_depolarization; lra. }
  assert (Wd : op_wf D) by apply channel_wf. assert (Nd : no_super D) by constructor.
  assert (Wh : op_wf HGate) by apply H_on. assert (Nh : no_super HGate) by constructor.
  match goal with |- preserves_trace ?x /\ _ => set (c := x) end. destruct (noisy_wf p) as [W N]. fold D c in W, N.
  assert (E : op_shape c = Ok [RW [LI; LO]]) by reflexivity.
  split.
  - apply (C47_trace W N E). intros k g [X|[X|[]]]; injection X as <- <-; cbn [g_op]; [|apply C41_trace].
    apply (C48_physical (ph_gate named_H Nh)).
  - assert (Hh : forall z i, bits 1 z -> bits 1 i -> op_amp HGate z i = hadamard z i) by (unfold HGate; rewrite sqrt_half; entries).
    eapply chan_has; [exact W|exact N|exact E|reflexivity|reflexivity|]. intros o i o' i' Bo Bi Bo' Bi'.
    change (op_dens c o i o' i') with (circ_chan (two_circ (op_dens HGate) (op_dens D)) o i o' i'). rewrite two_chan by auto.
    destruct Hd as (v & Ev & _ & V). destruct (dens_ok (sh := [RW [LI; LO]]) Wd Nd eq_refl) as (v' & Ev' & _ & _ & V'). rewrite Ev in Ev'. injection Ev' as <-.
    set (Ks := [mscale (cr (sqrt (1 - p_plane p / 2 - p_axis p / 4))) mone; mscale (cr (sqrt (p_axis p / 4))) pauli_x;
     mscale (cr (sqrt (p_plane p / 2 - p_axis p / 4))) pauli_y; mscale (cr (sqrt (p_axis p / 4))) pauli_z]) in *.
    unfold kraus at 1. rewrite sumf_map. unfold kraus in V.
    transitivity (sumf (fun z => sumf (fun z' => sumf (fun A => A o z * kconj (A o' z') * (hadamard z i * kconj (hadamard z' i'))) Ks) (words2 1)) (words2 1)).
    + apply sumf_ext. intros z Iz. apply sumf_ext. intros z' Iz'. apply in_words in Iz, Iz'. rewrite <- V' by auto. change (tval_value v (o ++ z ++ o' ++ z')) with (entries_of v o z o' z'). rewrite V by auto.
      change (op_dens HGate z i z' i') with (op_amp HGate z i * kconj (op_amp HGate z' i')). rewrite !Hh by auto. symmetry. apply sumf_mul_r.
    + generalize Ks. clear. intros Ks. unfold mmul. change (words2 1) with [[0%nat]; [1%nat]]. cbn [sumf].
      induction Ks as [|A Ks IH]; cbn [sumf] in *; [ring|]. rewrite <- IH. ck; ring.
Qed.
Print Assumptions C63_hadamard.

(** The noisy controlled-Z gates are the unitary matrices they should be, controlled-Z itself for the angle 0 of a qubit. *)
Definition cz_matrix (a : cz_angle) : mat CK :=
  mctrl true match a with NoAngle => pauli_z | OfQubit a => m22 (cis a) 0 0 (- cis (- a)) | OneAngle a => phase a end.
Lemma cz_on a : gate_on 2 (cz_gate a).
Proof.
  destruct a as [|a|a]; [apply CZ_on| |]; unfold cz_gate; gate_tac; wf_gate.
Qed.
Theorem C63_cz (a : cz_angle) : has_matrix (cz_gate a) 2 (cz_matrix a) /\ munitary 2 (cz_matrix a) /\ preserves_trace (cz_gate a).
Proof.
  assert (M : has_matrix (cz_gate a) 2 (cz_matrix a)).
  { apply (gate_mat (cz_on a)). destruct a as [|a|a]; entries. }
  assert (U : munitary 2 (cz_matrix a)).
  { apply unitary_ctrl. destruct a as [|a|a]; [apply involution_unitary; apply z_inv| |apply phase_unitary].
    assert (E : (cos a * cos a + sin a * sin a = 1)%R) by (pose proof (sin2_cos2 a) as E; unfold Rsqr in E; lra).
    split; intros o i Bo Bi; bit_cases; eval_entry; unfold cis; rewrite ?cos_neg, ?sin_neg; revert E; generalize (cos a), (sin a); intros c s E; ck; nra. }
  split; auto. split; auto. destruct (cz_on a) as (W & P & _ & sh & Es & L & Us). destruct M as (v & Ev & _ & V).
  assert (N : no_super (cz_gate a)) by (destruct a; constructor).
  apply (C47_pure W N P Es Ev).
  assert (Co : count role_out sh = 2%nat) by (rewrite <- L; apply unitary_all; auto using unitary_out).
  assert (Ci : count role_in sh = 2%nat) by (rewrite <- L; apply unitary_all; auto using unitary_in).
  rewrite Co, Ci. intros i i' Bi Bi'. destruct U as [U1 _]. rewrite <- U1 by auto. unfold mmul, madj. apply sumf_ext. intros o Io. apply in_words in Io.
  rewrite !V; auto.
Qed.
Print Assumptions C63_cz.

(** Every circuit of these operations and of the physical ones of C48 preserves the trace and has Kraus operators. *)
Inductive qec_op : op CK -> Prop :=
| qec_physical x : physical x -> qec_op x
| qec_idle d p ts : (0 <= d -> 0 <= T_1_inv p -> coherence d p ts <= 1 -> qec_op (IdleGate d p ts))%R
| qec_hadamard p x : (0 <= p_axis p /\ p_axis p <= 2 * p_plane p /\ p_axis p + 2 * p_plane p <= 4)%R -> NoisyHGate (Some p) = Ok x -> qec_op x
| qec_cz a : qec_op (cz_gate a)
| qec_circuit c sh : NoDup (keys c) -> gates_ok c -> (forall k g, In (k, g) c -> qec_op (g_op g)) -> op_shape (OCirc c) = Ok sh -> qec_op (OCirc c).
Lemma qec_ok x : qec_op x -> op_wf x /\ no_super x /\ preserves_trace x /\ exists Ks, has_kraus x Ks.
Proof.
  induction 1 as [x H|d p ts H1 H2 H3|p x (H1 & H2 & H3) E|a|c sh Nk G _ IH Es].
  - apply physical_ok; auto.
  - destruct (@C63_kraus d p ts H1 H2) as (_ & [_ K] & T). split; [apply channel_wf|]. split; [constructor|]. auto.
  - destruct (@C63_hadamard p H1 H2 H3) as (y & Ey & T & K). rewrite E in Ey. injection Ey as <-. pose proof (noisy_wf p) as W. rewrite E in W. destruct W as [W N].
    split; auto. split; auto. split; auto. eexists. exists [RW [LI; LO]]. split; [|exact K]. rewrite noisy_h in E. injection E as <-. reflexivity.
  - destruct (cz_on a) as (W & P & _ & sh & Es & _). assert (N : no_super (cz_gate a)) by (destruct a; constructor).
    split; auto. split; auto. split; [apply C63_cz|]. destruct (kraus_of W N P Es) as (v & _ & K). eexists. exists sh. split; [exact Es|exact K].
  - assert (W : op_wf (OCirc c)) by (constructor; auto; intros k g I; apply (IH k g I)).
    assert (N : no_super (OCirc c)) by (constructor; intros k g I; apply (IH k g I)).
    split; auto. split; auto. split.
    + eapply C47_trace; eauto. intros k g I; apply (IH k g I).
    + eapply C48_kraus; eauto. intros k g I; apply (IH k g I).
Qed.
Theorem C63_circuits x : qec_op x -> preserves_trace x /\ exists Ks, has_kraus x Ks.
Proof. intros H. apply qec_ok in H. tauto. Qed.
Print Assumptions C63_circuits.

(** the parameters of the file; a circuit with an idle gate, a noisy Hadamard gate and a noisy controlled-Z gate *)
Definition demo_params : qparams := QParams (1 / 30000) (1 / 60000) (1 / 10000) (5 / 10000) 4 (1 / 250) (13 / 10000).
Example C63_somewhere : (0 <= p_axis demo_params /\ p_axis demo_params <= 2 * p_plane demo_params /\ p_axis demo_params + 2 * p_plane demo_params <= 4 /\
  0 <= T_1_inv demo_params /\ (forall d, 0 <= d -> coherence d demo_params None <= 1) /\ chi demo_params <> 0)%R /\
  exists h, NoisyHGate (Some demo_params) = Ok h /\
  qec_op (OCirc [(NS "a", Gate 0%Z [NI 0] (OState false)); (NS "b", Gate 0%Z [NI 1] PlusState); (NS "c", Gate 1%Z [NI 0] h);
    (NS "d", Gate 2%Z [NI 1] (IdleGate 20 demo_params None)); (NS "e", Gate 3%Z [NI 0; NI 1] (cz_gate (OfQubit (1 / 100)))); (NS "f", Gate 4%Z [NI 0] NDCompMeas)]).
Proof.
  assert (Cl : (forall d, 0 <= d -> coherence d demo_params None <= 1)%R).
  { intros d Hd. unfold coherence. cbn. rewrite Rmult_1_r. destruct (Req_dec d 0) as [->|E].
    - replace (- 0 * (1 / 60000))%R with 0%R by field. rewrite exp_0. lra.
    - assert (X : (- d * (1 / 60000) < 0)%R) by lra. apply exp_increasing in X. rewrite exp_0 in X. lra. }
  assert (Hp : (0 <= p_axis demo_params /\ p_axis demo_params <= 2 * p_plane demo_params /\ p_axis demo_params + 2 * p_plane demo_params <= 4)%R) by (cbn; lra).
  split; [destruct Hp as (A & B & D); do 3 (split; auto); split; [cbn; lra|]; split; auto; cbn; lra|].
  eexists. split; [apply noisy_h|]. eapply qec_circuit with (sh := [RW [LO]; RW [LO]]).
  - repeat constructor; simpl; intuition discriminate.
  - intros k g I. repeat destruct I as [I|I]; try contradiction; injection I as <- <-; (split; [repeat constructor; simpl; intuition discriminate|reflexivity]).
  - intros k g I. repeat destruct I as [I|I]; try contradiction; injection I as <- <-; cbn [g_op].
    + apply qec_physical, ph_state.
    + apply qec_physical, ph_plus.
    + apply (qec_hadamard (p := demo_params)); auto; apply noisy_h.
    + apply qec_idle; [lra|cbn; lra|apply Cl; lra].
    + apply (qec_cz (OfQubit (1 / 100))).
    + apply qec_physical, ph_measure.
  - reflexivity.
Qed.
