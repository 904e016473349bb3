(** * Specification of gates and channels

    Only definitions, over the complex numbers: the textbook gates, exponentials of involutions. *)
From Coq Require Import Reals.
From Verif Require Import Base Scalar NetSpec ModelArray ModelVal ModelOps OpsSpec ModelContract CircSpec ModelCircuit CircSem Complex MatSpec.
Set Implicit Arguments.
Local Open Scope K_scope.

(** the matrix [[a, b], [c, d]] *)
Definition m22 (a b c d : CK) : mat CK := fun o i =>
  match o, i with
  | [0%nat], [0%nat] => a | [0%nat], [1%nat] => b
  | [1%nat], [0%nat] => c | [1%nat], [1%nat] => d
  | _, _ => 0
  end.
(** exchange of two bits *)
Definition mswap : mat CK := fun o i => mone o (rev i).

(** the textbook matrices *)
Definition pauli_x : mat CK := m22 0 1 1 0.
Definition pauli_y : mat CK := m22 0 (- ci) ci 0.
Definition pauli_z : mat CK := m22 1 0 0 (- (1)).
Definition hadamard : mat CK := mscale (cr (/ sqrt 2)) (m22 1 1 1 (- (1))).
Definition phase (x : R) : mat CK := m22 1 0 0 (cis x).

(** cos t + i sin t P, the exponential of i t P when P P = 1 *)
Definition mexp (t : R) (P : mat CK) : mat CK := fun o i => cr (cos t) * mone o i + (ci * cr (sin t)) * P o i.
