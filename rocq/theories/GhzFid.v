(** The noisy GHZ circuit and its overlap with the GHZ state. *)
From Coq Require Import Reals Lra Lia String Sorting.Permutation Sorting.Sorted.
From Verif Require Import Base Scalar NetSpec Sums NetAlg ModelArray ModelTN TNInv TNValue ModelVal ModelOps OpsSpec OpsProofs OpsValue ModelContract ModelNest NestSpec NameOrder CircSpec CircOrder ModelCircuit CircSem
  CircShape CircWire CircCtrl CircOp CircMain CircBuild CircUse CircAdj DensSpec CircDens CircDensOp CircPure ChanCirc CircNest CircExpr MatSpec MatProofs NoiseSpec ModelNoise NoisySpec NoiseAdd NoiseAdd2 NoiseAdd3 NoiseAdd5
  Complex GateSpec ModelGates GateProofs CoreSpec ModelGhz GhzProofs ChanOr ChanFid.
Set Implicit Arguments.
Open Scope nat_scope.

Section Sum.
  Local Open Scope K_scope.
  Lemma sum_const b : (b < 2)%nat -> forall n (f : list nat -> CK),
    sumf (fun m => kdelta (forallb (fun x => Nat.eqb x b) m) * f m) (indices (repeat 2%nat n)) = f (repeat b n).
  Proof.
    intros Hb. induction n as [|n IH]; intros f.
    - cbn. unfold kdelta. ck; ring.
    - cbn [repeat indices]. rewrite sumf_flat_map. cbn [seq sumf]. rewrite !sumf_map.
      assert (E : forall x, (x < 2)%nat -> sumf (fun m => kdelta (forallb (fun x => Nat.eqb x b) (x :: m)) * f (x :: m)) (indices (repeat 2%nat n)) = kdelta (Nat.eqb x b) * f (x :: repeat b n)).
      { intros x Hx. rewrite <- (IH (fun m => f (x :: m))), <- sumf_mul_l. apply sumf_ext. intros m _. cbn [forallb].
        destruct (Nat.eqb x b), (forallb (fun x => Nat.eqb x b) m); unfold kdelta; cbn [andb]; ck; ring. }
      rewrite !E by lia. destruct b as [|[|]]; [| |lia]; unfold kdelta; cbn [Nat.eqb]; ck; ring.
  Qed.
  Lemma sum_ghz n (f : list nat -> CK) : (1 <= n)%nat ->
    sumf (fun m => (if all_same m then cr (/ sqrt 2) else cr 0) * f m) (indices (repeat 2%nat n)) = cr (/ sqrt 2) * (f (repeat 0%nat n) + f (repeat 1%nat n)).
  Proof.
    intros L. rewrite <- (@sum_const 0 ltac:(lia) n f), <- (@sum_const 1 ltac:(lia) n f), <- sumf_add, <- sumf_mul_l. apply sumf_ext. intros m I.
    apply in_bits in I as [Lm _]. unfold all_same. destruct m as [|x m]; [simpl in Lm; lia|].
    destruct (forallb (fun b => Nat.eqb b 0) (x :: m)) eqn:E0, (forallb (fun b => Nat.eqb b 1) (x :: m)) eqn:E1; unfold kdelta; cbn [orb]; try (ck; ring).
    cbn [forallb] in E0, E1. apply andb_true_iff in E0 as [E0 _], E1 as [E1 _]. apply Nat.eqb_eq in E0, E1. lia.
  Qed.
  Lemma half : cr (/ sqrt 2) * cr (/ sqrt 2) = cr (/ 2).
  Proof. ck; rewrite ?Rmult_0_l, ?Rmult_0_r; [|ring]. rewrite Rminus_0_r, <- Rinv_mult. rewrite sqrt_sqrt by lra. reflexivity. Qed.
  Lemma conj_ghz m : kconj (if all_same m then cr (/ sqrt 2) else cr 0) = (if all_same m then cr (/ sqrt 2) else cr 0) :> CK.
  Proof. destruct (all_same m); ck; ring. Qed.
  Lemma ghz_overlap n (rho : list nat -> list nat -> CK) : (1 <= n)%nat ->
    let amp m := if all_same m then cr (/ sqrt 2) else cr 0 in
    sumf (fun m => sumf (fun m' => kconj (amp m) * rho m m' * amp m') (indices (repeat 2%nat n))) (indices (repeat 2%nat n)) =
    cr (/ 2) * (rho (repeat 0%nat n) (repeat 0%nat n) + rho (repeat 0%nat n) (repeat 1%nat n) + rho (repeat 1%nat n) (repeat 0%nat n) + rho (repeat 1%nat n) (repeat 1%nat n)).
  Proof.
    intros L amp.
    transitivity (sumf (fun m => amp m * (cr (/ sqrt 2) * (rho m (repeat 0%nat n) + rho m (repeat 1%nat n)))) (indices (repeat 2%nat n))).
    - apply sumf_ext. intros m _. rewrite <- (@sum_ghz n (rho m) L), <- sumf_mul_l. apply sumf_ext. intros m' _. unfold amp. rewrite conj_ghz. ck; ring.
    - unfold amp. rewrite (@sum_ghz n (fun m => cr (/ sqrt 2) * (rho m (repeat 0%nat n) + rho m (repeat 1%nat n))) L). rewrite <- half. ck; ring.
  Qed.
End Sum.

Lemma ghz_late n : late_names_free (stacked_after 0 (ghz_list n)).
Proof.
  intros t qs L I. unfold keys in I. apply in_map_iff in I as ([k g] & E & I). cbn in E. subst k. pose proof I as J.
  apply stacked_In in I as (_ & _ & _ & _ & _ & _ & E). injection E as -> _. apply max_time_le in J. cbn [snd] in J. lia.
Qed.
Lemma ghz_reversible n : reversible (OCirc (stacked_after 0 (ghz_list n))).
Proof.
  constructor.
  - apply stacked_slots.
  - intros k g I. apply stacked_In in I as (k0 & g0 & I & _ & -> & _).
    apply ghz_In in I as [->|[->|(j & _ & [->| ->])]]; cbn [g_op]; first [constructor; fail|apply H_like|apply CNOT_like].
Qed.
Lemma ghz_no_super n : no_super (OCirc (stacked_after 0 (ghz_list n))).
Proof.
  constructor. intros k g I. apply stacked_In in I as (k0 & g0 & I & _ & -> & _).
  apply ghz_In in I as [->|[->|(j & _ & [->| ->])]]; cbn [g_op]; constructor.
Qed.
Lemma ghz_adj_plain n a' : adj (OCirc (stacked_after 0 (ghz_list n))) = Ok a' -> plain_op a'.
Proof.
  set (c := stacked_after 0 (ghz_list n)). intros E.
  change (adj (OCirc c)) with (do p <- op_pure (OCirc c); if p then do r <- adj_gates (max_time c) c []; Ok (OCirc r) else Err ValueError) in E.
  destruct (op_pure (OCirc c)) as [[]|]; try discriminate. cbn [bind] in E.
  destruct (adj_gates (max_time c) c []) as [r|] eqn:Er; [|discriminate]. injection E as <-. constructor. intros k t qs x I.
  destruct (adj_gates_In _ _ _ Er _ _ I) as [[]|(k0 & t0 & q0 & y & J & A & ->)]. split; [left; eauto|]. cbn [g_op] in A.
  unfold c in J. apply stacked_In in J as (k1 & g1 & J & _ & Eo & _). cbn [g_op] in Eo. subst y.
  apply ghz_In in J as [->|[->|(j & _ & [->| ->])]]; cbn in A; injection A as <-; repeat constructor.
Qed.
Lemma ghz_register n : register (stacked_after 0 (ghz_list n)) (range_names (max n 1)).
Proof.
  destruct (@stacked_circ CK 0 (ghz_list n) (max n 1)) as (_ & Rg & _); auto.
  - intros k g I. eapply wf_ghz_op; eauto.
  - apply gates_ghz.
  - intros q. apply ghz_used.
  - apply ghz_alt.
Qed.
Lemma prepared_repeat n : prepared (repeat (RW [LO]) n).
Proof. apply Forall_forall. intros r I. apply repeat_spec in I. subst r. auto. Qed.
Lemma ghz_numbered n k g : In (k, g) (stacked_after 0 (ghz_list n)) -> numbered (g_op g) /\ forall c, g_op g <> OCirc c.
Proof.
  intros I. apply stacked_In in I as (k0 & g0 & I & _ & -> & _).
  apply ghz_In in I as [->|[->|(j & _ & [->| ->])]]; cbn [g_op]; split; try discriminate; intros c E; discriminate.
Qed.

(** add_noise keeps plain data and late names *)
Section Noisy.
  Context (S : scalar) (c : circ (op S)) (nz : op S) (sh : list role).
  Hypothesis Wz : op_wf nz.
  Hypothesis Ez : op_shape nz = Ok [RW [LI; LO]].
  Hypothesis Pz : plain_op nz.
  Hypothesis W : op_wf (OCirc c).
  Hypothesis Es : op_shape (OCirc c) = Ok sh.
  Hypothesis Nu : forall k g, In (k, g) c -> numbered (g_op g).
  Hypothesis Pc : plain_op (OCirc c).
  Lemma hush_plain : plain_op (OCirc (map (hush nz) c)).
  Proof.
    inversion Pc as [| | | | |? Pl|]; subst. constructor. intros k t qs x I. apply in_map_iff in I as ([k' [t' q' y]] & E & I). unfold hush in E. cbn in E. injection E as -> -> -> <-.
    destruct (Pl _ _ _ _ I) as [Gn Py]. split; auto.
    destruct (gate_good W Es Nu _ _ I) as (G & _). cbn [g_op snd] in G. destruct (noisy_op_eq Wz Ez G) as [u Et]. unfold noisy. rewrite Et. constructor. intros k0 t0 q0 z J.
    apply stacked_In in J as (k1 & [t1 q1 z1] & J & _ & Eo & _ & ->). cbn in Eo. subst z1. split; [left; eauto|].
    unfold noisy_list in J. apply in_app_iff in J as [J|J].
    - unfold inner in J. destruct y; try (destruct J as [J|[]]; injection J as <- <- <- <-; exact Py).
      inversion Py as [| | | | |? Pl'|]; subst. eapply Pl'. eapply Permutation_in; [apply Permutation_sym, in_order_perm|exact J].
    - apply in_map_iff in J as (q2 & J & _). unfold noise_gate in J. injection J as <- <- <- <-. exact Pz.
  Qed.
  Lemma hush_late : late_names_free c -> late_names_free (map (hush nz) c).
  Proof.
    intros L t qs H. rewrite hush_keys. apply L. replace (max_time c) with (max_time (map (hush nz) c)); auto.
    unfold max_time. destruct c as [|p r]; auto. cbn [map]. clear. cbn [hush snd g_time]. generalize (g_time (snd p)) as z.
    induction r as [|q r IH]; intros z; auto. cbn [map fold_left]. apply IH.
  Qed.
End Noisy.
