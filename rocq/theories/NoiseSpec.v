(** * Specification of channels

    Only definitions: Kraus operators, application of a channel to a density matrix, preservation of the trace. *)
From Verif Require Import Base Scalar NetSpec ModelArray ModelVal ModelOps OpsSpec ModelContract CircSpec ModelCircuit CircSem DensSpec MatSpec.
Set Implicit Arguments.

Section Noise.
  Variable S : scalar.
  Local Open Scope K_scope.
  Notation mat := (mat S).
  Notation chan := (chan S).

  (** the channel with the given Kraus operators: the sum of K(o,i) times the conjugate of K(o',i') *)
  Definition kraus (Ks : list mat) : chan := fun o i o' i' => sumf (fun K => K o i * kconj (K o' i')) Ks.

  (** a channel from [m] wires, applied to a density matrix *)
  Definition chan_apply (m : nat) (ch : chan) (rho : mat) : mat :=
    fun o o' => sumf (fun i => sumf (fun i' => ch o i o' i' * rho i i') (words2 m)) (words2 m).
  Definition mtrace (n : nat) (rho : mat) : S := sumf (fun i => rho i i) (words2 n).
  Definition trace_preserving (n m : nat) (ch : chan) : Prop :=
    forall rho, mtrace n (chan_apply m ch rho) = mtrace m rho.

  (** the entries of the tensor of an operation's density: outputs and inputs of the ket side, then of the bra side *)
  Definition entries_of (v : tval S) : chan := fun o i o' i' => tval_value v (o ++ i ++ o' ++ i').
  (** the density tensor of the operation is one from [m] wires to [n] wires, with the entries of the channel *)
  Definition has_channel (x : op S) (n m : nat) (ch : chan) : Prop :=
    exists v, tensor_density x = Ok v /\ tval_shape v = twos ((n + m) + (n + m)) /\
      forall o i o' i', bits n o -> bits m i -> bits n o' -> bits m i' -> entries_of v o i o' i' = ch o i o' i'.

  (** the density tensor of the operation preserves the trace; is one with Kraus operators *)
  Definition preserves_trace (x : op S) : Prop :=
    exists sh v, op_shape x = Ok sh /\ tensor_density x = Ok v /\
      trace_preserving (count role_out sh) (count role_in sh) (entries_of v).
  Definition has_kraus (x : op S) (Ks : list mat) : Prop :=
    exists sh, op_shape x = Ok sh /\ has_channel x (count role_out sh) (count role_in sh) (kraus Ks).
End Noise.
