(** Properties of measuring a qubit and of collapsing a circuit: C58.

    [prepares c n rho]: the circuit has no inputs and n outputs, and its density tensor has the entries of rho; [state n rho]:
    rho is Hermitian, positive and has trace 1; [born n k b rho]: the probability that qubit number k of the n + 1 qubits is found
    to be b; [without], [given]: the states after that; all in [MeasureSpec].  The outcome that is drawn is the parameter b. *)
From Coq Require Import Reals Lra Sorting.Permutation Sorting.Sorted.
From Verif Require Import Base Scalar NetSpec Sums NetAlg ModelArray ModelTN TNSpec ModelVal ModelOps OpsSpec ModelContract NameOrder CircSpec ModelCircuit CircSem CircShape CircWire
  CircCtrl CircOp CircMain CircBuild CircUse DensSpec CircDens CircDensOp CircPure MatSpec MatProofs NoiseSpec DeepSpec Complex GateSpec ModelGates GateProofs
  MeasureSpec ModelMeasure MeasState MeasExtend MeasFacts MeasOne MeasMain Props_Gates Props_Noise.
Set Implicit Arguments.
Local Open Scope K_scope.

(** ** C58: a measurement follows the Born rule and leaves the state that belongs to its outcome *)

(** The number with which the outcome is drawn is the probability of outcome 1. *)
Theorem C58_probability contract c N n k q rho : contracts contract ->
  on_range c N -> prepares c (S n) rho -> output_at c k q -> prob_one contract c q = Ok (born n k 1 rho).
Proof. intros. eapply prob_one_ok; eauto. Qed.
Print Assumptions C58_probability.

(** For a density matrix the two probabilities are probabilities. *)
Theorem C58_outcomes n k rho : (k <= n)%nat -> state (S n) rho ->
  (0 <= born n k 0 rho /\ 0 <= born n k 1 rho /\ born n k 0 rho + born n k 1 rho = 1)%R.
Proof. intros Hk St. split; [apply born_pos; auto|]. split; [apply born_pos; auto|]. apply born_one; auto. Qed.
Print Assumptions C58_outcomes.

(** After any outcome b that can be drawn, measure returns a circuit that prepares the state of the other qubits given this
    outcome or, unless the qubit is to be removed, of all the qubits.  That is a density matrix again, on the same register, so
    that more qubits can be measured; and with collapse it is prepared by one operation. *)
Theorem C58_measure contract c N n k q rho b : contracts contract ->
  on_range c N -> prepares c (S n) rho -> output_at c k q -> state (S n) rho ->
  let p := born n k (bit b) rho in (0 < p)%R ->
  (exists d, measure contract c q b true false = Ok d /\ on_range d N /\ prepares d n (without k (bit b) p rho)) /\
  (exists d, measure contract c q b false false = Ok d /\ on_range d N /\ prepares d (S n) (given k (bit b) p rho)) /\
  (exists g, measure contract c q b true true = Ok [g] /\ prepares [g] n (without k (bit b) p rho)) /\
  (exists g, measure contract c q b false true = Ok [g] /\ prepares [g] (S n) (given k (bit b) p rho)) /\
  state n (without k (bit b) p rho) /\ state (S n) (given k (bit b) p rho).
Proof.
  intros Ct R P O St p Hp. destruct (removed_ok2 Ct R P O St b Hp) as (d & E1 & R1 & P1 & F1). destruct (kept_ok2 Ct R P O St b Hp) as (e & E2 & R2 & P2 & F2).
  assert (Hk : (k <= n)%nat) by (destruct (setting R P O) as (_ & _ & _ & _ & _ & _ & _ & _ & Hk & _); auto).
  assert (Hb : (bit b < 2)%nat) by (destruct b; cbn; lia).
  split; [exists d; auto|]. split; [exists e; auto|]. split; [|split; [|split]].
  - destruct R1 as (W & Ns & _). destruct (collapse_ok Ct W Ns P1) as (key & t & qs & o & E & _ & _ & _ & Pr). rewrite F1, E. eexists. split; [reflexivity|exact Pr].
  - destruct R2 as (W & Ns & _). destruct (collapse_ok Ct W Ns P2) as (key & t & qs & o & E & _ & _ & _ & Pr). rewrite F2, E. eexists. split; [reflexivity|exact Pr].
  - apply without_state; auto.
  - apply given_state; auto.
Qed.
Print Assumptions C58_measure.

(** collapse of a circuit without inputs, on any qubits, makes one operation that prepares the same state; its qubits
    are the positions of the outputs. *)
Theorem C58_collapse contract c n rho : contracts contract -> op_wf (OCirc c) -> no_super (OCirc c) -> prepares c n rho ->
  exists key t qs o sh, collapse contract c = Ok [(key, Gate t qs o)] /\
    op_shape (OCirc c) = Ok sh /\ qs = map (fun i => NI (Z.of_nat i)) (positions role_out sh) /\
    op_wf (OCirc [(key, Gate t qs o)]) /\ no_super (OCirc [(key, Gate t qs o)]) /\ prepares [(key, Gate t qs o)] n rho.
Proof.
  intros Ct W Ns P. destruct (collapse_ok Ct W Ns P) as (key & t & qs & o & E & W1 & N1 & (sh & Es & Eq) & Pr). exists key, t, qs, o, sh. auto 10.
Qed.
Print Assumptions C58_collapse.
Theorem C58_collapse_inputs contract c sh : op_shape (OCirc c) = Ok sh -> (0 < count role_in sh)%nat -> collapse contract c = Err ValueError.
Proof.
  intros Es H. unfold collapse. rewrite Es. cbn [bind]. rewrite positions_count. destruct (count role_in sh); [lia|]. reflexivity.
Qed.
Print Assumptions C58_collapse_inputs.

(** The hypotheses hold for the circuits without inputs made of the package's states, gates and channels (C48). *)
Theorem C58_physical c sh : physical (OCirc c) -> op_shape (OCirc c) = Ok sh -> count role_in sh = 0%nat ->
  exists rho, prepares c (count role_out sh) rho /\ state (count role_out sh) rho.
Proof.
  intros Ph Es Ci. destruct (physical_ok Ph) as (W & Ns & _ & _). destruct (C48_density_matrix Ph Es Ci) as (v & Ev & H1 & H2 & H3 & _).
  exists (fun o o' => entries_of v o [] o' []). split; [|split; [|split]; auto].
  destruct (dens_ok W Ns Es) as (v' & Ev' & _ & Sv & V). rewrite Ev in Ev'. injection Ev' as <-. rewrite Ci in *.
  exists sh, v. split; auto. split; auto. split; auto. split; auto. split; [rewrite Sv; f_equal; lia|].
  intros x x' B B'. unfold entries_of. cbn [app]. rewrite app_nil_r. auto.
Qed.
Print Assumptions C58_physical.

(** A noisy Bell pair on the qubits 0 and 1: the second qubit can be measured, with one of the outcomes; and there is a contract
    as supposed. *)
Definition pair : circ op :=
  [(NS "p", Gate 0 [NI 0] PlusState); (NS "z", Gate 0 [NI 1] (OState false)); (NS "n", Gate 1 [NI 0] (AmplitudeDampling (1 / 3)));
   (NS "c", Gate 2 [NI 0; NI 1] CNOTGate)].
Definition by_value (v : tval CK) : res (nd CK) :=
  match tval_shape v with
  | Some l => Ok (ND (map (fun d => match d with Some m => m | None => 0%nat end) l) (tval_value v))
  | None => Err ValueError
  end.
Lemma by_value_contracts : contracts by_value.
Proof.
  intros o v W H.
  assert (E : exists m, tval_shape v = twos m).
  { destruct H as [[Pu Ev]|[Ns [[sh Es] Ev]]].
    - destruct (proj1 (conv_ok W) Pu) as (sh & _ & u & Eu & _ & Su & _). change (tensor_pure o = Ok u) in Eu. rewrite Ev in Eu. injection Eu as <-. eauto.
    - destruct (dens_ok W Ns Es) as (u & Eu & _ & Su & _). rewrite Ev in Eu. injection Eu as <-. eauto. }
  destruct E as [m E]. unfold by_value. rewrite E. cbn. eexists. split; [reflexivity|].
  assert (X : map (fun d => match d with Some m => m | None => 0%nat end) (repeat (Some 2%nat) m) = repeat 2%nat m) by (clear; induction m; cbn; f_equal; auto).
  split; [|auto]. rewrite E. cbn [nd_shape]. rewrite X. unfold twos. f_equal. clear. induction m; cbn; f_equal; auto.
Qed.
Example C58_somewhere : exists rho b, contracts by_value /\ on_range pair 2 /\ prepares pair 2 rho /\ output_at pair 1 (NI 1) /\ state 2 rho /\ (0 < born 1 1 (bit b) rho)%R.
Proof.
  assert (E : op_shape (OCirc pair) = Ok [RW [LO]; RW [LO]]) by (vm_compute; reflexivity).
  assert (Ph : physical (OCirc pair)).
  { eapply ph_circuit; [apply nodupb_NoDup; vm_compute; reflexivity| | |exact E].
    - intros k g I. simpl in I. repeat (destruct I as [I|I]; [inversion I; subst; split; [apply nodupb_NoDup; vm_compute; reflexivity|vm_compute; reflexivity]|]). contradiction.
    - intros k g I. simpl in I. destruct I as [I|[I|[I|[I|[]]]]]; inversion I; subst; cbn [g_op].
      + apply ph_plus. + apply ph_state. + apply ph_damping; lra. + eapply ph_gate; [apply named_CNOT|apply ns_ctrl]. }
  destruct (physical_ok Ph) as (W & Ns & _ & _). destruct (C58_physical Ph E eq_refl) as (rho & P & St). change (count role_out [RW [LO]; RW [LO]]) with 2%nat in *.
  destruct (@C58_outcomes 1 1 rho ltac:(lia) St) as (H0 & H1 & H2).
  assert (B : exists b, (0 < born 1 1 (bit b) rho)%R).
  { destruct (Rlt_dec 0 (born 1 1 0 rho)); [exists false; auto|exists true; cbn [bit]; lra]. }
  destruct B as [b Hb]. exists rho, b. split; [apply by_value_contracts|]. split; [|split; [auto|split; [|split; auto]]].
  - split; auto. split; auto. split.
    + split; [|repeat constructor]. intros q. split.
      * intros [<-|[<-|[]]]; [exists (NS "p"), (Gate 0 [NI 0] PlusState)|exists (NS "z"), (Gate 0 [NI 1] (OState false))]; simpl; auto.
      * intros (k & g & I & Iq). simpl in I. destruct I as [I|[I|[I|[I|[]]]]]; inversion I; subst; simpl in Iq; simpl; intuition.
    + intros t qs _ I. simpl in I. intuition discriminate.
  - exists [RW [LO]; RW [LO]], 1%nat. auto.
Qed.

(** On qubits that are not called 0, 1, ... it is false: the other outputs are traced out by position.  On the qubits 1 and 2, which is
    what measuring the first of three qubits with remove and collapse leaves, the second cannot be measured. *)
Definition shifted : circ op := [(NS "a", Gate 0 [NI 1] (OState false)); (NS "b", Gate 0 [NI 2] (OState false))].
Theorem C58_labels_refuted : exists rho, op_wf (OCirc shifted) /\ no_super (OCirc shifted) /\ register shifted [NI 1; NI 2] /\ prepares shifted 2 rho /\
  forall contract b remove coll, contracts contract -> measure contract shifted (NI 2) b remove coll = Err TypeError.
Proof.
  assert (E : op_shape (OCirc shifted) = Ok [RW [LO]; RW [LO]]) by (vm_compute; reflexivity).
  assert (Ph : physical (OCirc shifted)).
  { eapply ph_circuit; [apply nodupb_NoDup; vm_compute; reflexivity| | |exact E].
    - intros k g I. simpl in I. repeat (destruct I as [I|I]; [inversion I; subst; split; [apply nodupb_NoDup; vm_compute; reflexivity|vm_compute; reflexivity]|]). contradiction.
    - intros k g I. simpl in I. destruct I as [I|[I|[]]]; inversion I; subst; cbn [g_op]; apply ph_state. }
  destruct (physical_ok Ph) as (W & Ns & _ & _). destruct (C58_physical Ph E eq_refl) as (rho & P & St). exists rho. split; auto. split; auto. split; [|split; auto].
  { split; [|repeat constructor]. intros q. split.
    - intros [<-|[<-|[]]]; [exists (NS "a"), (Gate 0 [NI 1] (OState false))|exists (NS "b"), (Gate 0 [NI 2] (OState false))]; simpl; auto.
    - intros (k & g & I & Iq). simpl in I. destruct I as [I|[I|[]]]; inversion I; subst; simpl in Iq; simpl; intuition. }
  intros contract b remove coll Ct. unfold measure.
  set (d := [(NS "a", Gate 0 [NI 1] (OState false)); (NS "b", Gate 0 [NI 2] (OState false)); (NT [NI 1; NT [NI 2]], Gate 1 [NI 2] (OMeas true)); (NT [NI 2; NT [NI 0]], Gate 2 [NI 0] TraceOp)] : circ op).
  assert (Wd : op_wf (OCirc d)).
  { constructor; [apply nodupb_NoDup; vm_compute; reflexivity| |].
    - intros k g I. simpl in I. destruct I as [I|[I|[I|[I|[]]]]]; inversion I; subst; cbn [g_op]; [apply wf_state|apply wf_state|apply wf_meas|apply trace_facts].
    - intros k g I. simpl in I. repeat (destruct I as [I|I]; [inversion I; subst; split; [apply nodupb_NoDup; vm_compute; reflexivity|vm_compute; reflexivity]|]). contradiction. }
  assert (Nd : no_super (OCirc d)) by (constructor; intros k g I; simpl in I; destruct I as [I|[I|[I|[I|[]]]]]; inversion I; subst; constructor).
  assert (Ed : exists sd, op_shape (OCirc d) = Ok sd /\ (count role_out sd + count role_in sd + (count role_out sd + count role_in sd) = 4)%nat) by (eexists; split; [vm_compute; reflexivity|reflexivity]).
  destruct Ed as (sd & Esd & Cd). destruct (dens_ok Wd Nd Esd) as (v & Ev & _ & Sv & _). rewrite Cd in Sv.
  destruct (Ct _ _ Wd (or_intror (conj Nd (conj (ex_intro _ _ Esd) Ev)))) as (a & Ea & Sa & _).
  assert (Ep : prob_one contract shifted (NI 2) = do v <- tensor_density (OCirc d); do a <- contract v; match nd_shape a with [] => Ok (fst (nd_at a [])) | _ => Err TypeError end).
  { reflexivity. }
  rewrite Ep, Ev. cbn [bind]. rewrite Ea. cbn [bind]. rewrite Sv in Sa. unfold twos in Sa. injection Sa as Sa. destruct (nd_shape a); [discriminate Sa|]. reflexivity.
Qed.
Print Assumptions C58_labels_refuted.
