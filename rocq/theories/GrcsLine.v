(** * Each line of a circuit file appends the gate that the line names *)
From Coq Require Import Reals Lra Lia Ascii String Sorting.Permutation Sorting.Sorted.
From Verif Require Import Base Scalar NetSpec Sums NetAlg ModelArray ModelTN TNInv TNValue ModelVal ModelOps OpsSpec ModelContract ModelNest NestSpec NameOrder CircSpec CircOrder ModelCircuit CircSem
  CircShape CircWhen CircWire CircCtrl CircOp CircMain CircBuild CircUse CircExpr MatSpec MatProofs CoreSpec Complex GateSpec ModelGates GateProofs ModelDeep DeepSpec ModelOrder Props_CircContract ModelGrcs GrcsSpec.
Set Implicit Arguments.
Open Scope nat_scope.

Definition good_gate (k : nat) (g : op CK) (A : mat CK) : Prop :=
  op_wf g /\ op_pure g = Ok true /\ plain_op g /\ (exists sh, op_shape g = Ok sh /\ length sh = k /\ forallb role_unitary sh = true) /\
  meq k (op_amp g) A.
Lemma good_on k g A : gate_on k g -> plain_op g -> meq k (op_amp g) A -> good_gate k g A.
Proof. intros (W & P & _ & S) Pl M. repeat (split; auto). Qed.
Ltac good := apply good_on; [gate_tac; wf_gate|repeat constructor|].

Lemma isq : (/ sqrt 2 * / sqrt 2 = / 2)%R.
Proof. rewrite <- Rinv_mult, sqrt_sqrt by lra. auto. Qed.
Lemma cos_m : cos (- (PI / 4)) = (/ sqrt 2)%R.
Proof. rewrite cos_neg, cos_PI4. unfold Rdiv. ring. Qed.
Lemma sin_m : sin (- (PI / 4)) = (- / sqrt 2)%R.
Proof. rewrite sin_neg, sin_PI4. unfold Rdiv. ring. Qed.
Lemma cos_p : cos (PI / 4) = (/ sqrt 2)%R.
Proof. rewrite cos_PI4. unfold Rdiv. ring. Qed.
Lemma sin_p : sin (PI / 4) = (/ sqrt 2)%R.
Proof. rewrite sin_PI4. unfold Rdiv. ring. Qed.

Lemma good_h : good_gate 1 HGate hadamard.
Proof. apply good_on; [apply H_on|repeat constructor|]. intros o i Bo Bi. unfold HGate. rewrite sqrt_half. revert o i Bo Bi. entries. Qed.
Lemma good_x : good_gate 1 x_half (mexp (- (PI / 4)) pauli_x).
Proof. good. unfold mexp, x_half. rewrite cos_m, sin_m. unfold Rdiv. rewrite !Rmult_1_l. generalize (/ sqrt 2)%R. intros r. entries. Qed.
Lemma good_y : good_gate 1 y_half (mexp (- (PI / 4)) pauli_y).
Proof. good. unfold mexp, y_half. rewrite cos_m, sin_m. unfold Rdiv. rewrite !Rmult_1_l. generalize (/ sqrt 2)%R. intros r. entries. Qed.
Lemma good_w : good_gate 1 hz_half (mexp (- (PI / 4)) pauli_w).
Proof. good. unfold mexp, hz_half, pauli_w, cis. rewrite cos_m, sin_m, cos_p, sin_p. unfold Rdiv. rewrite !Rmult_1_l. generalize (/ sqrt 2)%R. intros r. entries. Qed.
Lemma good_rz t : good_gate 1 (rz_gate t) (phase t).
Proof. good. entries. Qed.
Lemma good_t : good_gate 1 t_gate (phase (PI / 4)).
Proof. apply good_rz. Qed.
Lemma good_cz : good_gate 2 CZGate (mctrl true pauli_z).
Proof. apply good_on; [apply CZ_on|repeat constructor|]. entries. Qed.
Lemma good_fs t p : good_gate 2 (fs_gate t p) (fsim t p).
Proof. good. entries. Qed.

Definition is_phase : op CK := Diagonal 2 (qarr 2 [k1; ci; ci; k1]) false.
Lemma is_lined : lined 2 is_phase /\ lined 2 SWAPGate.
Proof.
  split; (split; [|split; [reflexivity|split; [eexists; split; [reflexivity|split; reflexivity]|exact I]]]); [wf_gate|wf_open].
Qed.
Lemma good_is : exists g, is_gate = Ok g /\ good_gate 2 g iswap.
Proof.
  destruct is_lined as [La Lb]. destruct (@seq_ok CK 2 is_phase SWAPGate La Lb ltac:(lia)) as (c & Eo & (W & P & S & N) & M & _).
  exists (OCirc c). split; [exact Eo|]. split; auto. split; auto. split; [|split; auto].
  - destruct (@or_form CK is_phase SWAPGate [RC; RC] [RW [LI; LO]; RW [LI; LO]]) as (c0 & l & E & H); try reflexivity.
    + apply La. + apply Lb.
    + rewrite Eo in E. injection E as ->. destruct H as [(_ & -> & ->)|[(X & _)|(X & _)]]; try discriminate. constructor. cbn [app].
      intros k t qs a I. apply stacked_In in I as (k0 & g0 & I & _ & Ex & _ & ->). split; [left; eauto|]. cbn in Ex. subst a.
      destruct I as [I|[I|[]]]; injection I as _ <-; cbn [g_op]; [apply plain_ctrl|apply plain_pure, wiring_plain; vm_compute; auto].
  - intros o i Bo Bi. rewrite M by auto. unfold mmul, words2. cbn [repeat indices seq flat_map map app]. cbn [sumf fold_right].
    bit_cases; eval_entry; ck; ring.
Qed.

(** ** reading *)
Lemma lower_upper a b : upper_of a b -> lower_ascii a = b.
Proof.
  intros (k & L & -> & ->). unfold lower_ascii. rewrite nat_ascii_embedding by lia.
  replace ((65 <=? k) && (k <=? 90)) with true; auto. symmetry. apply andb_true_iff. split; apply Nat.leb_le; lia.
Qed.
Lemma lower_same : forall a w, same_word a w -> lower w = w -> lower a = w.
Proof.
  induction a as [|x a IH]; intros [|y w] H E; cbn [same_word] in H; try contradiction; auto.
  destruct H as [Hx Hs]. cbn [lower] in *. injection E as E1 E2. f_equal; auto. destruct Hx as [->|U]; [exact E1|apply lower_upper; auto].
Qed.
Section Line.
  Variable int_of : string -> option Z.
  Variable float_of : string -> option R.
  Lemma ints_ok ws ts : Forall2 (fun s q => int_of s = Some (Z.of_nat q)) ws ts -> to_ints int_of ws = Ok (map Z.of_nat ts).
  Proof. induction 1 as [|w t ws ts E _ IH]; auto. cbn [to_ints]. unfold to_int. rewrite E. cbn [bind]. rewrite IH. reflexivity. Qed.
  Lemma firstn_exact {A} (a b : list A) : firstn (length a) (a ++ b) = a.
  Proof. induction a; simpl; f_equal; auto. Qed.
  Lemma skipn_exact {A} (a b : list A) : skipn (length a) (a ++ b) = b.
  Proof. induction a; simpl; auto. Qed.
  Definition qnames (ts : list nat) : list name := map (fun t => NI (Z.of_nat t)) ts.
  Lemma line_ok words x : reads int_of float_of words x ->
    exists g, good_gate (length (i_targets x)) g (i_mat x) /\ i_targets x <> [] /\
      forall c, grcs_line int_of float_of words c = c_append g (qnames (i_targets x)) (Some (i_layer x)) None c.
  Proof.
    intros (w0 & w1 & tg & pr & w & k & ps & -> & E0 & Sw & Gw & Ft & Lk & Fp). pose proof (ints_ok Ft) as Ti. assert (Lt : length tg = length (i_targets x)) by (clear -Ft; induction Ft; simpl; auto).
    rewrite <- Lt. assert (Nz : k <> 0) by (destruct Gw; discriminate).
    assert (H : exists g, good_gate k g (i_mat x) /\ forall c, grcs_line int_of float_of (w0 :: w1 :: tg ++ pr) c = c_append g (qnames (i_targets x)) (Some (i_layer x)) None c).
    { assert (Ew : lower w1 = w) by (apply lower_same; auto; destruct Gw; reflexivity).
      assert (Es : size_table w = Ok k) by (destruct Gw; reflexivity).
      assert (Ln : forall c, grcs_line int_of float_of (w0 :: w1 :: tg ++ pr) c =
        match pr with
        | [] => do g <- gate_table w; c_append g (qnames (i_targets x)) (Some (i_layer x)) None c
        | [a] => do t <- to_float float_of a; c_append (rz_gate t) (qnames (i_targets x)) (Some (i_layer x)) None c
        | [a; b] => do t <- to_float float_of a; do p <- to_float float_of b; c_append (fs_gate t p) (qnames (i_targets x)) (Some (i_layer x)) None c
        | _ => Ok c
        end).
      { intros c. unfold grcs_line, to_int. rewrite E0. cbn [bind]. rewrite Ew, Es. cbn [bind]. rewrite <- Lk, firstn_exact, skipn_exact, Ti. cbn [bind].
        rewrite map_map. reflexivity. }
      clear Ew Es. destruct Gw; inversion Fp as [|p1 r1 l1 l2 F1 Fp1]; subst pr; try (inversion Fp1 as [|p2 r2 l3 l4 F2 Fp2]; subst); try (inversion Fp2; subst);
        try (eexists; split; [|intros c; rewrite Ln; cbn [gate_table String.eqb Ascii.eqb Bool.eqb bind]; reflexivity]).
      - apply good_h. - apply good_x. - apply good_y. - apply good_w. - apply good_t.
      - exists (rz_gate t). split; [apply good_rz|]. intros c. rewrite Ln. unfold to_float. rewrite F1. reflexivity.
      - apply good_cz.
      - destruct good_is as (g & Eg & Gg). match goal with |- good_gate _ ?h _ => set (h0 := h) end.
        assert (Y : Ok h0 = Ok g) by exact Eg. injection Y as Y. rewrite Y. exact Gg.
      - exists (fs_gate t p). split; [apply good_fs|]. intros c. rewrite Ln. unfold to_float. rewrite F1. cbn [bind]. rewrite F2. reflexivity. }
    destruct H as (g & Gg & H). exists g. rewrite Lk. split; auto. split; auto. intros E. rewrite E in Lt. simpl in Lt. lia.
  Qed.
End Line.
