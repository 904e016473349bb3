(** * Model of add_noise (acqdp/circuit/noise.py:49-59)

    An operation is turned into a circuit, the noise channel is appended on each of its outputs, and the result takes
    the place of the operation.  Outputs are numbered by position and the noise is appended on the number, not on the
    name of the qubit. *)
From Verif Require Import Base Scalar NetSpec ModelArray ModelTN ModelVal ModelContract CircSpec ModelCircuit.
Set Implicit Arguments.

Section Noise.
  Variable S : scalar.
  Notation op := (op S).
  (** noise.py:56-57: for a in new_op._output_indices[0]: new_op.append(noise_channel, [a]) *)
  Fixpoint noise_each (nz : op) (idx : list nat) (c : circ op) : res (circ op) :=
    match idx with
    | [] => Ok c
    | a :: r => do c <- c_append nz [NI (Z.of_nat a)] None None c; noise_each nz r c
    end.
  (** noise.py:55-57: new_op = Circuit() | operation, then the loop; the output indices are computed once, before it *)
  Definition noisy_op (nz : op) (o : op) : res op :=
    do r <- op_or (OCirc []) o;
    match r with
    | OCirc c => do sh <- op_shape r; do c <- noise_each nz (positions role_out sh) c; Ok (OCirc c)
    | _ => Ok r
    end.
  (** noise.py:51-58: the loop over operations_by_name *)
  Fixpoint noisy_gates (nz : op) (l acc : circ op) : res (circ op) :=
    match l with
    | [] => Ok acc
    | (k, g) :: r =>
        do o <- noisy_op nz (g_op g);
        do acc <- c_append o (g_qubits g) (Some (g_time g)) (Some k) acc; noisy_gates nz r acc
    end.
  (** noise.py:49-59 *)
  Definition add_noise (c : circ op) (nz : op) : res (circ op) := noisy_gates nz c [].
End Noise.
