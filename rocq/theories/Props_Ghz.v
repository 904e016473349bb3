(** * C60: the circuit of examples/GHZ.py prepares the GHZ state

    [ghz n] (ModelGhz.v) is GHZState(n); [op_amp] (CircSem.v) the amplitudes of an operation; [finder] the default order finder (C51). *)
From Coq Require Import Reals Lra Lia String Sorting.Permutation Sorting.Sorted.
From Verif Require Import Base Scalar NetSpec Sums NetAlg ModelArray ModelTN TNInv TNValue ModelVal ModelOps OpsSpec ModelContract ModelNest NestSpec NameOrder CircSpec ModelCircuit CircSem
  CircShape CircWire CircCtrl CircOp CircMain CircBuild CircUse DensSpec CircDens CircDensOp CircPure MatSpec MatProofs NoiseSpec NoiseAdd ModelDeep DeepSpec OrderSpec
  ModelOrder OrderProofs OrderNet DeepFind Complex GateSpec ModelGates GateProofs Props_Order Props_Deep CoreSpec Props_CircContract ModelGhz GhzProofs.
Set Implicit Arguments.
Open Scope nat_scope.

(** the GHZ state: 1/sqrt 2 on 00...0 and on 11...1, zero elsewhere *)
Definition ghz_state (o : list nat) : CK :=
  if forallb (fun b => Nat.eqb b 0) o || forallb (fun b => Nat.eqb b 1) o then cr (/ sqrt 2) else cr 0.

Lemma pure_all (c : circ (op CK)) sh : op_shape (OCirc c) = Ok sh -> (forall k t qs x, In (k, Gate t qs x) c -> op_pure x = Ok true) -> op_pure (OCirc c) = Ok true.
Proof.
  intros E H. cbn [op_pure]. change (op_shape (OCirc c)) with (@op_shape CK (OCirc c)) in E.
  match goal with |- bind (is_ok ?s) _ = _ => change s with (@op_shape CK (OCirc c)) end. rewrite E. cbn [is_ok bind]. clear E.
  induction c as [|[k [t qs x]] c IH]; [reflexivity|]. rewrite (H k t qs x) by (simpl; auto). cbn [bind].
  rewrite IH; [reflexivity|]. intros k' t' qs' x' I. apply (H k' t' qs'). simpl; auto.
Qed.

(** For every number n >= 1 of qubits the circuit is built, contraction of its tensor by any memory limit, path optimiser and cost that admits
    the result returns an array with n axes of dimension 2, and its entries are those of the GHZ state. *)
Theorem C60_ghz (ord : list name -> list name) (memory : Z) (sp : ostep -> opath) (cost : tn (tval CK) -> Z) (n : nat) :
  (forall l, Permutation (ord l) l) -> good_paths sp -> (forall n, (cost n * 48 <= memory * 2 ^ 30)%Z) -> 1 <= n ->
  exists c v k a, ghz n = Ok c /\ op_shape (OCirc c) = Ok (repeat (RW [LO]) n) /\
    tensor_pure (OCirc c) = Ok v /\ (forall fuel, k <= fuel -> contract_val ord memory (finder sp cost) fuel v = Ok a) /\
    nd_shape a = repeat 2 n /\
    forall o, bits n o -> nd_at a o = ghz_state o.
Proof.
  intros Po Gp Mem L. destruct (ghz_shape n) as [W E]. replace (max n 1) with n in E by lia.
  assert (Pl : plain_op (OCirc (stacked_after 0 (ghz_list n)))).
  { constructor. intros k t qs x I. apply stacked_In in I as (k0 & g0 & I & _ & Eo & _ & ->). cbn in Eo. split; [left; eauto|].
    apply ghz_In in I as [->|[->|(j & _ & [->| ->])]]; cbn in Eo; subst x; repeat constructor. }
  assert (Pu : op_pure (OCirc (stacked_after 0 (ghz_list n))) = Ok true).
  { apply (pure_all _ E). intros k t qs x I. apply stacked_In in I as (k0 & g0 & I & _ & Eo & _ & _). cbn in Eo.
    apply ghz_In in I as [->|[->|(j & _ & [->| ->])]]; cbn in Eo; subst x; reflexivity. }
  destruct (@C59_pure CK ord memory sp cost _ _ Po Gp Mem W Pl Pu E) as (v & k & a & Ev & Ca & Sh & Va).
  exists (stacked_after 0 (ghz_list n)), v, k, a. split; [apply ghz_ok|]. split; auto. split; auto. split; auto.
  cbn zeta in Sh, Va.
  assert (Co : count role_out (repeat (RW [LO]) n) = n) by (clear; induction n as [|n IH]; [reflexivity|]; unfold count in *; simpl in *; congruence).
  assert (Ci : count role_in (repeat (RW [LO]) n) = 0) by (clear; induction n as [|n IH]; [reflexivity|]; unfold count in *; simpl in *; congruence).
  rewrite Co, Ci, Nat.add_0_r in *. split; auto.
  intros o B. specialize (Va o [] B). rewrite app_nil_r in Va. rewrite Va by (split; auto). apply ghz_amp; auto.
Qed.
Print Assumptions C60_ghz.
(** an order, a path optimiser, a cost and a memory limit as above; three qubits *)
Example C60_somewhere : good_paths std_sp /\ (exists c, ghz 3 = Ok c /\ List.length c = 6) /\
  ghz_state [1; 1; 1] = cr (/ sqrt 2) /\ ghz_state [1; 0; 1] = cr 0 /\ cr (/ sqrt 2) <> cr 0.
Proof.
  split; [apply std_good|]. split; [eexists; split; [vm_compute; reflexivity|reflexivity]|]. split; [reflexivity|]. split; [reflexivity|].
  intros E. apply (f_equal fst) in E. cbn in E. apply (Rinv_neq_0_compat (sqrt 2)); [apply sqrt2_neq_0|exact E].
Qed.
