(** * Specification of a noisy circuit

    Only definitions.  After each operation the noise channel acts once on each qubit that the operation outputs. *)
From Verif Require Import Base Scalar NetSpec ModelArray ModelTN ModelVal OpsSpec ModelContract CircSpec ModelCircuit CircSem DensSpec.
Set Implicit Arguments.

Section Noisy.
  Variable S : scalar.
  (** the qubits that exist after an operation on [qs] *)
  Definition outputs (o : op S) (qs : list name) : list name :=
    map fst (filter (fun x => role_out (snd x)) (combine qs (shape_or o))).
  Definition with_noise (nz : op S) (gates : circ (op S)) : list (cact S) :=
    flat_map (fun p => CAct (g_qubits (snd p)) (map role_word (shape_or (g_op (snd p)))) (op_dens (g_op (snd p)))
                       :: map (fun q => CAct [q] [[LI; LO]] (op_dens nz)) (outputs (g_op (snd p)) (g_qubits (snd p)))) gates.
  (** operations that are circuits have the qubits 0, 1, ... *)
  Definition numbered (o : op S) : Prop := forall c, o = OCirc c -> exists n, register c (range_names n).
End Noisy.
