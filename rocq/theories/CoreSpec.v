(** * Circuits whose tensors contract() can evaluate: arrays, wirings, and circuits of such operations *)
From Verif Require Import Base Scalar NetSpec ModelArray ModelTN TNInv TNValue ModelVal NestSpec ModelCircuit.
Set Implicit Arguments.
Local Open Scope nat_scope.

Section CoreSpec.
  Variable S : scalar.
  Notation tval := (tval S).

  (** The data of an operation: an array, or a wiring: a network without nodes and without fixed edges, whose edges are named by
      integers and each reach an input.  [ins] marks the places of the inputs among the open edges. *)
  Definition plain_data (ins : list bool) (d : tval) : Prop :=
    match d with
    | VTensor (Some _) => True
    | VNet n => regular n /\ nodes n = [] /\ no_fixes n /\
        forall e, In e (keys (edges n)) -> (exists z, e = NI z) /\ In (true, e) (combine ins (opens n))
    | _ => False
    end.
  (** outputs first, then inputs *)
  Definition places (sh : list role) : list bool := repeat false (count role_out sh) ++ repeat true (count role_in sh).
  (** the name of an operation in a circuit: the default, or a string that contract() does not use itself *)
  Definition gate_name (k : name) : Prop := (exists t qs, k = NT [NI t; NT qs]) \/ exists s, k = NS s /\ s <> "*"%string /\ s <> "#"%string.
  Inductive plain_op : op S -> Prop :=
  | plain_pure sa sh d : plain_data (places sh) d -> plain_op (OPure sa sh d)
  | plain_ctrl sa sh a : plain_op (OCtrl sa sh (VTensor (Some a)))
  | plain_state b : plain_op (OState b)
  | plain_meas b : plain_op (OMeas b)
  | plain_imm sh d : plain_data (places sh ++ places sh) d -> plain_op (OImm sh d)
  | plain_circ c : (forall k t qs a, In (k, Gate t qs a) c -> gate_name k /\ plain_op a) -> plain_op (OCirc c)
  | plain_ccirc cond c : plain_op (OCirc c) -> plain_op (OCCirc cond c).
End CoreSpec.
