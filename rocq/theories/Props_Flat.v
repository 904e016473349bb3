(** Properties of nested circuits: C56. *)
From Coq Require Import Sorting.Permutation Sorting.Sorted.
From Verif Require Import Base Scalar NetSpec Sums NetAlg ModelArray ModelTN TNSpec ModelVal OpsSpec ModelOps ModelContract
  NameOrder Examples CircSpec CircOrder ModelCircuit CircSem CircShape CircCtrl CircMain CircBuild CircUse DensSpec CircDens CircDensNet CircDensOp CircPure
  FlatSpec CircNest4 Props_Density.
Set Implicit Arguments.

(** ** C56: a nested circuit means what its flat list of operations means *)

(** [flat x Q l] (FlatSpec): [l] has the operations inside [x] at all depths, none of them a circuit, in an order that
    respects time at each level, each with the qubits of [Q] that it stands on when the i-th qubit of an inner circuit, in
    sorted order, is the i-th qubit it was appended on.  The tensor of [x] is then the product of the operations of [l]. *)
Theorem C56_pure (S : scalar) (x : op S) Q l sh :
  op_wf x -> op_pure x = Ok true -> op_shape x = Ok sh -> NoDup Q -> length Q = length sh -> flat x Q l ->
  exists v, tensor_pure x = Ok v /\
    let n := length (wires_out Q (pure_acts l)) in
    let m := length (wires_in Q (pure_acts l)) in
    tval_shape v = twos (n + m) /\
    forall o i, bits n o -> bits m i -> tval_value v (o ++ i) = amplitude Q (pure_acts l) o i.
Proof.
  intros W P Es NQ L F. destruct (conv_ok W) as [H _]. destruct (H P) as (sh' & Es' & v & Ev & _ & Sv & Vv).
  rewrite Es in Es'. injection Es' as <-. destruct (flat_counts W Es NQ L F) as [E1 E2]. exists v. split; auto. cbv zeta. rewrite E1, E2.
  split; auto. intros o i Bo Bi. rewrite Vv by auto. apply (flat_amp W Es NQ L F); auto.
Qed.
Print Assumptions C56_pure.

(** The same for density tensors, with operations that are not pure. *)
Theorem C56_density (S : scalar) (x : op S) Q l sh :
  op_wf x -> no_super x -> op_shape x = Ok sh -> NoDup Q -> length Q = length sh -> flat x Q l ->
  exists v, tensor_density x = Ok v /\
    let n := length (wires_out Q (pure_acts l)) in
    let m := length (wires_in Q (pure_acts l)) in
    tval_shape v = twos ((n + m) + (n + m)) /\
    forall o i o' i', bits n o -> bits m i -> bits n o' -> bits m i' ->
      tval_value v (o ++ i ++ o' ++ i') = channel Q (dens_acts l) o i o' i'.
Proof.
  intros W N Es NQ L F. destruct (dens_ok W N Es) as (v & Ev & _ & Sv & Vv).
  destruct (flat_counts W Es NQ L F) as [E1 E2]. exists v. split; auto. cbv zeta. rewrite E1, E2.
  split; auto. intros o i o' i' Bo Bi Bo' Bi'. rewrite Vv by auto. apply (flat_chan W Es NQ L F); auto.
Qed.
Print Assumptions C56_density.

(** Every operation that has a shape has a flat list, and so do its parts. *)
Theorem C56_flat_exists (S : scalar) (x : op S) Q sh : op_wf x -> op_shape x = Ok sh -> length Q = length sh -> exists l, flat x Q l.
Proof. intros W Es L. apply flat_exists; auto. unfold op_len. rewrite Es. simpl. congruence. Qed.
Print Assumptions C56_flat_exists.

(** How operations are grouped into circuits does not matter: two operations with a common flat list have the same tensor. *)
Theorem C56_grouping (S : scalar) (x y : op S) Q l sx sy :
  op_wf x -> op_wf y -> op_pure x = Ok true -> op_pure y = Ok true -> op_shape x = Ok sx -> op_shape y = Ok sy ->
  NoDup Q -> length Q = length sx -> length Q = length sy -> flat x Q l -> flat y Q l ->
  exists v w, tensor_pure x = Ok v /\ tensor_pure y = Ok w /\ tval_shape v = tval_shape w /\
    forall o i, bits (count role_out sx) o -> bits (count role_in sx) i -> tval_value v (o ++ i) = tval_value w (o ++ i).
Proof.
  intros Wx Wy Px Py Ex Ey NQ Lx Ly Fx Fy. destruct (C56_pure Wx Px Ex NQ Lx Fx) as (v & Ev & Sv & Vv).
  destruct (C56_pure Wy Py Ey NQ Ly Fy) as (w & Ew & Sw & Vw). destruct (flat_counts Wx Ex NQ Lx Fx) as [E1 E2]. cbv zeta in *.
  exists v, w. split; auto. split; auto. split; [congruence|]. intros o i Bo Bi. rewrite <- E1, <- E2 in *. rewrite Vv, Vw by auto. auto.
Qed.
Print Assumptions C56_grouping.

(** A circuit inside another with its qubits exchanged, then a gate or a channel. *)
Definition outer (g : op GK) : circ (op GK) := [(NS "n", Gate 1%Z [qa] g); (NS "c", Gate 0%Z [qb; qa] (OCirc dcirc))].
Definition outer_flat (g : op GK) : list (op GK * list name) :=
  [(OState (S := GK) true, [qa]); (gm, [qb]); (gi, [qa]); (gm, [qa]); (OMeas (S := GK) true, [qb]); (g, [qa])].
Lemma outer_wf g : op_wf g -> op_len g = Ok 1%nat -> op_wf (OCirc (outer g)).
Proof.
  intros Wg L. constructor; [nodup| |]; intros k h I; simpl in I;
    repeat (destruct I as [I|I]; [inversion I; subst; simpl; first [apply wf_dcirc|exact Wg|split; [nodup|first [exact L|vm_compute; reflexivity]]]|]); contradiction.
Qed.
Lemma outer_is_flat g : (forall c, g <> OCirc c) -> flat (OCirc (outer g)) [qa; qb] (outer_flat g).
Proof.
  intros Ng. apply flat_circ with (gates := in_order (outer g)) (Q := [qa; qb]).
  - split; [apply in_order_perm|apply in_order_sorted].
  - apply all_qubits_register. reflexivity.
  - reflexivity.
  - change (in_order (outer g)) with [(NS "c", Gate 0%Z [qb; qa] (OCirc dcirc)); (NS "n", Gate 1%Z [qa] g)].
    apply (@flat_cons GK _ _ _ _ _ [(OState (S := GK) true, [qa]); (gm, [qb]); (gi, [qa]); (gm, [qa]); (OMeas (S := GK) true, [qb])] [(g, [qa])]).
    + apply flat_circ with (gates := in_order dcirc) (Q := [qa; qb]).
      * split; [apply in_order_perm|apply in_order_sorted].
      * apply all_qubits_register. reflexivity.
      * reflexivity.
      * change (in_order dcirc) with [(NS "p", Gate 0%Z [qb] (OState (S := GK) true)); (NS "m", Gate 0%Z [qa] gm);
          (NS "n", Gate 1%Z [qb] gi); (NS "s", Gate 2%Z [qb] gm); (NS "q", Gate 3%Z [qa] (OMeas (S := GK) true))].
        repeat match goal with |- flat_gates _ _ ((_, Gate _ _ ?x) :: _) ((?y, ?qs) :: ?r) =>
          apply (@flat_cons GK _ _ _ _ _ [(y, qs)] r); [apply flat_one; intros; discriminate|] end. constructor.
    + apply (@flat_cons GK _ _ _ _ _ [(g, [qa])] []); [apply flat_one; auto|constructor].
Qed.
Example C56_somewhere :
  (op_wf (OCirc (outer gm)) /\ op_pure (OCirc (outer gm)) = Ok true /\ op_shape (OCirc (outer gm)) = Ok [RW [LO]; RW [LI]] /\
   flat (OCirc (outer gm)) [qa; qb] (outer_flat gm) /\ entry (tensor_pure (OCirc (outer gm))) [0; 1] = Some (-22, -6)%Z) /\
  (op_wf (OCirc (outer gnoise)) /\ no_super (OCirc (outer gnoise)) /\ op_shape (OCirc (outer gnoise)) = Ok [RW [LO]; RW [LI]] /\
   flat (OCirc (outer gnoise)) [qa; qb] (outer_flat gnoise) /\ entry (tensor_density (OCirc (outer gnoise))) [0; 1; 1; 0] = Some (180, 0)%Z).
Proof.
  split.
  - split; [apply outer_wf; [apply wf_gm|reflexivity]|]. split; [vm_compute; reflexivity|]. split; [vm_compute; reflexivity|].
    split; [apply outer_is_flat; discriminate|]. vm_compute; reflexivity.
  - split; [apply outer_wf; [apply wf_gnoise|reflexivity]|]. split.
    { constructor. intros k g I. simpl in I. repeat (destruct I as [I|I]; [inversion I; subst; first [apply ns_dcirc|constructor]|]). contradiction. }
    split; [vm_compute; reflexivity|]. split; [apply outer_is_flat; discriminate|]. vm_compute; reflexivity.
Qed.
