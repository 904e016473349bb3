(** Properties of density tensors: C39. *)
From Coq Require Import Sorting.Permutation Sorting.Sorted.
From Verif Require Import Base Scalar NetSpec Sums NetAlg ModelArray ModelTN TNSpec ModelVal OpsSpec ModelOps ModelContract
  NameOrder Examples CircSpec CircOrder ModelCircuit CircSem CircShape CircCtrl CircMain CircBuild DensSpec CircDens CircDensNet CircDensOp CircPure.
Set Implicit Arguments.

(** ** C39: density semantics agree with pure semantics *)

(** For a pure operation (in particular a circuit of pure operations, nested to any depth) without superpositions, both
    conversions succeed, and the density tensor at (o, i, o', i') is the amplitude at (o, i) times the conjugate of the
    amplitude at (o', i'). *)
Theorem C39_density_of_pure (S : scalar) (x : op S) :
  op_wf x -> no_super x -> op_pure x = Ok true ->
  exists sh a d, op_shape x = Ok sh /\ tensor_pure x = Ok a /\ tensor_density x = Ok d /\
    let n := count role_out sh in
    let m := count role_in sh in
    tval_shape a = twos (n + m) /\ tval_shape d = twos ((n + m) + (n + m)) /\
    forall o i o' i', bits n o -> bits m i -> bits n o' -> bits m i' ->
      tval_value d (o ++ i ++ o' ++ i') = kmul (tval_value a (o ++ i)) (kconj (tval_value a (o' ++ i'))).
Proof.
  intros W N P. destruct (conv_ok W) as [Ha _]. destruct (Ha P) as (sh & Es & a & Ea & _ & Sa & Va).
  destruct (dens_ok W N Es) as (d & Ed & _ & Sd & Vd).
  exists sh, a, d. split; auto. split; auto. split; auto. split; auto. split; auto.
  intros o i o' i' Bo Bi Bo' Bi'. rewrite Vd, !Va, (dens_pure W N P Es); auto.
Qed.
Print Assumptions C39_density_of_pure.

(** The entries of a density tensor in general: those of the operation's own tensor for one given by its density, and
    for a circuit those of the channels of its operations run in order of time on two copies of its qubits. *)
Theorem C39_density (S : scalar) (x : op S) sh :
  op_wf x -> no_super x -> op_shape x = Ok sh ->
  exists d, tensor_density x = Ok d /\
    let n := count role_out sh in
    let m := count role_in sh in
    tval_shape d = twos ((n + m) + (n + m)) /\
    forall o i o' i', bits n o -> bits m i -> bits n o' -> bits m i' -> tval_value d (o ++ i ++ o' ++ i') = op_dens x o i o' i'.
Proof. intros W N E. destruct (dens_ok W N E) as (d & Ed & _ & Sd & Vd). exists d. auto. Qed.
Print Assumptions C39_density.

(** Operations over the Gaussian integers: a phase, a matrix with complex entries, a channel that is not pure. *)
Definition GT := tval GK.
Definition gmat (f : nat -> nat -> GK) : GT :=
  VTensor (Some (ND (S := GK) [2; 2] (fun x => match x with [a; b] => f a b | _ => k0 end))).
Definition gi : op GK := OPure false [RW [LI; LO]] (gmat (fun a b => match a, b with 0, 0 => (1, 0)%Z | 1, 1 => (0, 1)%Z | _, _ => (0, 0)%Z end)).
Definition gm : op GK := OPure false [RW [LI; LO]] (gmat (fun a b => (Z.of_nat (1 + a), 2 + Z.of_nat b - 3 * Z.of_nat a)%Z)).
Definition gnoise : op GK :=
  OImm [RW [LI; LO]] (VTensor (Some (ND (S := GK) [2; 2; 2; 2]
    (fun x => match x with [a; b; c; d] => (1 + Z.of_nat (a + 2 * b), Z.of_nat (a * c) - Z.of_nat d)%Z | _ => k0 end)))).
Lemma wf_gi : op_wf gi. Proof. constructor; [constructor|reflexivity|reflexivity]. Qed.
Lemma wf_gm : op_wf gm. Proof. constructor; [constructor|reflexivity|reflexivity]. Qed.
Lemma wf_gnoise : op_wf gnoise. Proof. constructor; [constructor|reflexivity|reflexivity]. Qed.
Definition qa : name := NS "a".
Definition qb : name := NS "b".
(** a preparation on b, a matrix on a, a phase on b, a measurement on a; b inserted out of order of time *)
Definition dcirc : circ (op GK) :=
  [(NS "s", Gate 2%Z [qb] gm); (NS "p", Gate 0%Z [qb] (OState (S := GK) true)); (NS "m", Gate 0%Z [qa] gm);
   (NS "n", Gate 1%Z [qb] gi); (NS "q", Gate 3%Z [qa] (OMeas (S := GK) true))].
Definition ncirc : circ (op GK) := [(NS "c", Gate 0%Z [qa; qb] (OCirc dcirc)); (NS "n", Gate 1%Z [qb] gnoise)].
Ltac nodup := apply nodupb_NoDup; vm_compute; reflexivity.
Lemma wf_dcirc : op_wf (OCirc dcirc).
Proof.
  constructor; [nodup| |]; intros k g I; simpl in I;
    repeat (destruct I as [I|I]; [inversion I; subst; simpl; first [apply wf_gm|apply wf_gi|apply wf_state|apply wf_meas|split; [nodup|reflexivity]]|]); contradiction.
Qed.
Lemma ns_dcirc : no_super (OCirc dcirc).
Proof. constructor. intros k g I. simpl in I. repeat (destruct I as [I|I]; [inversion I; subst; constructor|]). contradiction. Qed.

Definition entry (r : res GT) (x : list nat) : option GK := match r with Ok v => Some (tval_value v x) | Err _ => None end.

(** -4 + 28 i = (-6 + 2 i) (2 - 4 i) *)
Example C39_pure_somewhere : op_wf (OCirc dcirc) /\ no_super (OCirc dcirc) /\ op_pure (OCirc dcirc) = Ok true /\
  entry (tensor_pure (OCirc dcirc)) [0; 1] = Some (-6, 2)%Z /\ entry (tensor_pure (OCirc dcirc)) [1; 0] = Some (2, 4)%Z /\
  entry (tensor_density (OCirc dcirc)) [0; 1; 1; 0] = Some (-4, 28)%Z.
Proof.
  split; [apply wf_dcirc|]. split; [apply ns_dcirc|]. do 3 (split; [vm_compute; reflexivity|]). vm_compute; reflexivity.
Qed.
Example C39_somewhere : op_wf (OCirc ncirc) /\ no_super (OCirc ncirc) /\ op_pure (OCirc ncirc) = Ok false /\
  op_shape (OCirc ncirc) = Ok [RW [LI]; RW [LO]] /\ entry (tensor_density (OCirc ncirc)) [0; 1; 1; 0] = Some (180, 0)%Z.
Proof.
  split.
  { constructor; [nodup| |]; intros k g I; simpl in I;
      repeat (destruct I as [I|I]; [inversion I; subst; simpl; first [apply wf_dcirc|apply wf_gnoise|split; [nodup|vm_compute; reflexivity]]|]); contradiction. }
  split.
  { constructor. intros k g I. simpl in I. repeat (destruct I as [I|I]; [inversion I; subst; first [apply ns_dcirc|constructor]|]). contradiction. }
  do 2 (split; [vm_compute; reflexivity|]). vm_compute; reflexivity.
Qed.

(** Superpositions have to be excluded: one is pure and has amplitudes, but asking for its density is an error. *)
Theorem C39_superposition_refuted :
  exists (x : op GK) a, op_wf x /\ op_pure x = Ok true /\ tensor_pure x = Ok a /\ tensor_density x = Err ValueError.
Proof.
  exists (OSuper [((2, 1)%Z : GK, gi); ((0, 1)%Z : GK, gm)]). eexists. split.
  - apply wf_super with (ins := [0%nat]) (outs := [0%nat]); [discriminate| | |]; intros c a I; simpl in I;
      repeat (destruct I as [I|I]; [inversion I; subst; first [apply wf_gi|apply wf_gm|reflexivity|eexists; split; [reflexivity|split; reflexivity]]|]); contradiction.
  - split; [reflexivity|]. split; [vm_compute; reflexivity|reflexivity].
Qed.
Print Assumptions C39_superposition_refuted.
