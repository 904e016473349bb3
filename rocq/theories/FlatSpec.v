(** * Specification of nested circuits

    Only definitions.  The flat list of a circuit has the operations at all depths, in order of time, each on the qubits of the
    outermost circuit that it stands for. *)
From Verif Require Import Base Scalar NetSpec ModelArray ModelTN ModelVal OpsSpec ModelContract CircSpec ModelCircuit CircSem DensSpec.
Set Implicit Arguments.

Section Flat.
  Variable S : scalar.
  (** a circuit whose qubits are [Q], sorted, is placed on the qubits [qs]: the qubit that [q] becomes *)
  Definition wire_to (Q qs : list name) (q : name) : name := nth (index_of q Q) qs q.

  (** [flat o qs l]: the operations that are not circuits themselves inside [o] when it is placed on [qs], in an order that
      respects time at each level, with their qubits *)
  Inductive flat : op S -> list name -> list (op S * list name) -> Prop :=
  | flat_one o qs : (forall c, o <> OCirc c) -> flat o qs [(o, qs)]
  | flat_circ c qs gates Q ls :
      time_ordered c gates -> register c Q -> length qs = length Q -> flat_gates Q qs gates ls -> flat (OCirc c) qs ls
  with flat_gates : list name -> list name -> circ (op S) -> list (op S * list name) -> Prop :=
  | flat_nil Q qs : flat_gates Q qs [] []
  | flat_cons Q qs k g gates l ls : flat (g_op g) (map (wire_to Q qs) (g_qubits g)) l -> flat_gates Q qs gates ls ->
      flat_gates Q qs ((k, g) :: gates) (l ++ ls).

  (** the operations on wires with their amplitudes, or with their densities *)
  Definition pure_acts (l : list (op S * list name)) : list (act S) :=
    map (fun p => Act (snd p) (map role_word (shape_or (fst p))) (op_amp (fst p))) l.
  Definition dens_acts (l : list (op S * list name)) : list (cact S) :=
    map (fun p => CAct (snd p) (map role_word (shape_or (fst p))) (op_dens (fst p))) l.
End Flat.
Scheme flat_mut := Induction for flat Sort Prop
  with flat_gates_mut := Induction for flat_gates Sort Prop.
