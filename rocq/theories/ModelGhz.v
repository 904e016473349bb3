(** * Model of examples/GHZ.py: the preparation circuit of a GHZ state

    The script's last lines, (b | a.adjoint()).tensor_density.contract() for b = add_noise(a, ...), are the subject of C61, where n and the noise are
    arbitrary; the printing is not modelled. *)
From Verif Require Import Base Scalar NetSpec ModelArray ModelTN ModelVal ModelContract CircSpec ModelCircuit Complex ModelGates.
Set Implicit Arguments.

Definition qubit (j : nat) : name := NI (Z.of_nat j).
(** GHZ.py:7-9 the loop, [k] rounds from round [i] *)
Fixpoint ghz_loop (k i : nat) (a : circ (op CK)) : res (circ (op CK)) :=
  match k with
  | 0 => Ok a
  | Datatypes.S k =>
      do a <- c_append (OState false) [qubit (i + 1)] None None a;
      do a <- c_append CNOTGate [qubit 0; qubit (i + 1)] None None a;
      ghz_loop k (Datatypes.S i) a
  end.
(** GHZ.py:5-10 GHZState(n); range(n - 1) is empty for n = 0 *)
Definition ghz (n : nat) : res (circ (op CK)) :=
  do a <- c_append (OState false) [qubit 0] None None [];
  do a <- c_append HGate [qubit 0] None None a;
  ghz_loop (n - 1) 0 a.
