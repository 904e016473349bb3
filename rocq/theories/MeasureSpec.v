(** * Specification of measuring a qubit

    Only definitions. *)
From Coq Require Import Reals.
From Verif Require Import Base Scalar NetSpec Sums ModelArray ModelTN ModelVal OpsSpec ModelContract CircSpec ModelCircuit CircSem DensSpec Complex MatSpec NoiseSpec DeepSpec.
Set Implicit Arguments.

(** the bits [y] with one more bit [b] at place [k] *)
Definition ins (k b : nat) (y : list nat) : list nat := firstn k y ++ b :: skipn k y.

(** the circuit has no inputs and prepares [n] qubits in the state with density matrix [rho] *)
Definition prepares (c : circ (op CK)) (n : nat) (rho : mat CK) : Prop :=
  exists sh v, op_shape (OCirc c) = Ok sh /\ count role_in sh = 0%nat /\ count role_out sh = n /\
    tensor_density (OCirc c) = Ok v /\ tval_shape v = twos (n + n) /\
    forall x x', bits n x -> bits n x' -> tval_value v (x ++ x') = rho x x'.

(** for a state of [n + 1] qubits: the probability that qubit number [k] is found to be [b] *)
Definition born (n k b : nat) (rho : mat CK) : R := fst (sumf (fun y => rho (ins k b y) (ins k b y)) (words2 n)).
(** the state of the other qubits given this outcome, and of all *)
Definition without (k b : nat) (p : R) (rho : mat CK) : mat CK :=
  fun y y' => kmul (cr (/ p)) (rho (ins k b y) (ins k b y')).
Definition given (k b : nat) (p : R) (rho : mat CK) : mat CK :=
  fun x x' => if Nat.eqb (nth k x 0%nat) b && Nat.eqb (nth k x' 0%nat) b then kmul (cr (/ p)) (rho x x') else k0.

(** a density matrix: Hermitian, positive, with trace 1 *)
Definition nonneg (z : CK) : Prop := exists p, (0 <= p)%R /\ z = cr p.
Definition state (n : nat) (rho : mat CK) : Prop :=
  meq n (madj rho) rho /\
  (forall w, nonneg (sumf (fun x => sumf (fun x' => kmul (kmul (kconj (w x)) (rho x x')) (w x')) (words2 n)) (words2 n))) /\
  mtrace n rho = k1.

(** [q] is the [k]-th of the qubits that the circuit outputs *)
Definition output_at (c : circ (op CK)) (k : nat) (q : name) : Prop :=
  exists sh i, op_shape (OCirc c) = Ok sh /\ nth_error (positions role_out sh) k = Some i /\ q = NI (Z.of_nat i).
(** a circuit without superpositions on the qubits 0, ..., N-1, in which names that append() makes are not in use for later steps *)
Definition on_range (c : circ (op CK)) (N : nat) : Prop :=
  op_wf (OCirc c) /\ no_super (OCirc c) /\ register c (range_names N) /\
  forall t qs, (max_time c < t)%Z -> ~ In (NT [NI t; NT qs]) (keys c).

(** contract() returns the array of the tensor it is asked for *)
Definition contracts (contract : tval CK -> res (nd CK)) : Prop :=
  forall o v, op_wf o ->
    (op_pure o = Ok true /\ tensor_pure o = Ok v) \/ (no_super o /\ (exists sh, op_shape o = Ok sh) /\ tensor_density o = Ok v) ->
    exists a, contract v = Ok a /\ array_of v a.
