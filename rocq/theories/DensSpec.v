(** * Specification of density tensors

    Only definitions.  The density tensor of an operation has four groups of bonds: outputs and inputs of the ket side,
    outputs and inputs of the bra side.  For an operation with amplitudes [a] it is a(o,i) times the conjugate of
    a(o',i').  A circuit of such operations is a circuit on twice as many wires, one copy of each wire per side. *)
From Verif Require Import Base Scalar NetSpec ModelArray ModelTN ModelVal OpsSpec ModelContract CircSpec ModelCircuit CircSem.
Set Implicit Arguments.

Section Dens.
  Variable S : scalar.
  Local Open Scope K_scope.
  (** entries by o, i, o', i' *)
  Definition chan : Type := list nat -> list nat -> list nat -> list nat -> S.
  Definition of_amp (a : ampl S) : chan := fun o i o' i' => a o i * kconj (a o' i').

  (** the two copies of a wire *)
  Definition ket (q : name) : name := NT [q; NS "p"].
  Definition bra (q : name) : name := NT [q; NS "d"].
  Definition both (qs : list name) : list name := map ket qs ++ map bra qs.

  (** a channel placed on wires, as an operation on both copies *)
  Record cact : Type := CAct { c_on : list name; c_words : list word; c_chan : chan }.
  Definition skel (g : cact) : act S := Act (c_on g) (c_words g) (fun _ _ => 0).
  Definition dbl (g : cact) : act S :=
    Act (both (c_on g)) (c_words g ++ c_words g)
        (fun o i => let n := length (act_outs (skel g)) in
                    let m := length (act_ins (skel g)) in
                    c_chan g (firstn n o) (firstn m i) (skipn n o) (skipn m i)).
  Definition channel (Q : list name) (gs : list cact) : chan :=
    fun o i o' i' => amplitude (both Q) (map dbl gs) (o ++ o') (i ++ i').

  (** a gate of a circuit whose operation has the given shape and density *)
  Definition cgact (g : gate (list role * chan)) : cact :=
    CAct (g_qubits g) (map role_word (fst (g_op g))) (snd (g_op g)).
  Definition circ_chan (c : circ (list role * chan)) : chan :=
    match all_qubits c with
    | Ok qs => channel qs (map (fun p => cgact (snd p)) (in_order c))
    | Err _ => fun _ _ _ _ => 0
    end.
  Fixpoint op_dens (o : op S) : chan :=
    match o with
    | OImm _ d => fun o i o' i' => tval_value d (o ++ i ++ o' ++ i')
    | OCirc c => circ_chan (map (fun p => match p with (k, Gate t q a) => (k, Gate t q (shape_or a, op_dens a)) end) c)
    | _ => of_amp (op_amp o)
    end.

  (** the density of a superposition is not supported by the package *)
  Inductive no_super : op S -> Prop :=
  | ns_pure sa sh d : no_super (OPure sa sh d)
  | ns_ctrl sa sh d : no_super (OCtrl sa sh d)
  | ns_state b : no_super (OState b)
  | ns_meas b : no_super (OMeas b)
  | ns_imm sh d : no_super (OImm sh d)
  | ns_ccirc b c : no_super (OCCirc b c)
  | ns_circ c : (forall k g, In (k, g) c -> no_super (g_op g)) -> no_super (OCirc c).

  (** the result is a tensor with bonds of dimension 2 for the four groups, with the given entries *)
  Definition density_ok (r : res (tval S)) (sh : list role) (a : chan) : Prop :=
    let n := count role_out sh in
    let m := count role_in sh in
    exists v, r = Ok v /\ complete v /\ tval_shape v = twos (n + m + (n + m)) /\
      forall o i o' i', bits n o -> bits m i -> bits n o' -> bits m i' -> tval_value v (o ++ i ++ o' ++ i') = a o i o' i'.
End Dens.
Arguments CAct {S} c_on c_words c_chan.
