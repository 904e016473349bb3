(** * Specification of gates: matrices

    Only definitions: matrices indexed by lists of bits (rows: outputs, columns: inputs). *)
From Verif Require Import Base Scalar NetSpec ModelArray ModelVal ModelOps OpsSpec ModelContract CircSpec ModelCircuit CircSem.
Set Implicit Arguments.

Definition mat (S : scalar) : Type := list nat -> list nat -> S.
(** all lists of [n] bits *)
Definition words2 (n : nat) : list (list nat) := indices (repeat 2%nat n).

Section Mat.
  Variable S : scalar.
  Local Open Scope K_scope.
  Notation mat := (mat S).

  Definition mone : mat := fun o i => kdelta (eqb o i).
  Definition mmul (n : nat) (A B : mat) : mat := fun o i => sumf (fun m => A o m * B m i) (words2 n).
  Definition madj (A : mat) : mat := fun o i => kconj (A i o).
  Definition mscale (c : S) (A : mat) : mat := fun o i => c * A o i.
  (** [A] on the first [n] wires, [B] on the others *)
  Definition mkron (n : nat) (A B : mat) : mat := fun o i => A (firstn n o) (firstn n i) * B (skipn n o) (skipn n i).
  Definition meq (n : nat) (A B : mat) : Prop := forall o i, bits n o -> bits n i -> A o i = B o i.
  Definition munitary (n : nat) (A : mat) : Prop := meq n (mmul n (madj A) A) mone /\ meq n (mmul n A (madj A)) mone.
  (** [A] when the first bit is 1 (or 0, if not [cond]), otherwise the identity *)
  Definition mctrl (cond : bool) (A : mat) : mat := fun o i =>
    match o, i with
    | x :: o, y :: i => if Nat.eqb x y then if Nat.eqb x (if cond then 1 else 0) then A o i else mone o i else 0
    | _, _ => 0
    end.

  (** the tensor of the operation is one from [n] wires to [n] wires, outputs first, with the entries of the matrix *)
  Definition has_matrix (x : op S) (n : nat) (A : mat) : Prop :=
    exists v, tensor_pure x = Ok v /\ tval_shape v = twos (n + n) /\
      forall o i, bits n o -> bits n i -> tval_value v (o ++ i) = A o i.
End Mat.
Arguments mone {S} o i.
