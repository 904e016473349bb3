(** * Model of measuring a qubit and collapsing a circuit (acqdp/circuit/circuit.py:832-895)

    [contract] is contract() on the tensor of a circuit (C51 says what it returns).  The random draw of
    np.random.binomial is a parameter: the outcome [b].  Numbers are exact. *)
From Coq Require Import Reals.
From Verif Require Import Base Scalar NetSpec ModelArray ModelTN ModelVal OpsSpec ModelContract CircSpec ModelCircuit Complex ModelGates.
Set Implicit Arguments.

Section Measure.
  Variable contract : tval CK -> res (nd CK).
  Notation op := (op CK).

  Definition pos_names (l : list nat) : list name := map (fun i => NI (Z.of_nat i)) l.

  (** circuit.py:832-859 collapse: the qubits of the new operation are the positions of the outputs.  np.reshape of the
      array to the shape it has is left out. *)
  Definition collapse (c : circ op) : res (circ op) :=
    do sh <- op_shape (OCirc c);
    if negb (length (positions role_in sh) =? 0) then Err ValueError
    else
      let qs := positions role_out sh in
      do p <- op_pure (OCirc c);
      if p then
        do v <- tensor_pure (OCirc c); do a <- contract v;
        do o <- mk_pure false (repeat (RW [LO]) (length qs)) (VTensor (Some a));
        c_append o (pos_names qs) None None []
      else
        do v <- tensor_density (OCirc c); do a <- contract v;
        do o <- mk_imm (repeat (RW [LO]) (length qs)) (VTensor (Some a));
        c_append o (pos_names qs) None None [].

  (** circuit.py:883-885: the loop over the output positions, computed once *)
  Fixpoint trace_each (q : name) (idx : list nat) (c : circ op) : res (circ op) :=
    match idx with
    | [] => Ok c
    | i :: r => if eqb (NI (Z.of_nat i)) q then trace_each q r c
                else do c <- c_append TraceOp [NI (Z.of_nat i)] None None c; trace_each q r c
    end.
  (** circuit.py:881-886 prob_1.  An array that is not a single number is an error: np.random.binomial and the list index
      of line 888 do not take it (TypeError, or ValueError for entries that are no probabilities). *)
  Definition prob_one (c : circ op) (q : name) : res R :=
    do d <- c_copy c [];
    do d <- c_append (OMeas true) [q] None None d;
    do sh <- op_shape (OCirc d);
    do d <- trace_each q (positions role_out sh) d;
    do v <- tensor_density (OCirc d); do a <- contract v;
    match nd_shape a with [] => Ok (fst (nd_at a [])) | _ => Err TypeError end.

  (** circuit.py:861-897 measure, with outcome [b] *)
  Definition measure (c : circ op) (q : name) (b remove coll : bool) : res (circ op) :=
    do p <- prob_one c q;
    if Rlt_dec p 0 then Err ValueError else if Rlt_dec 1 p then Err ValueError
    else
      let prob := if b then p else (1 - p)%R in
      do d <- c_copy c [];
      do d <- c_append (OMeas b) [q] None None d;
      do u <- mk_pure false [] (VTensor (Some (nd_scalar (cr (1 / sqrt prob)))));
      do d <- c_append u [] None None d;
      do d <- (if remove then Ok d else c_append (OState b) [q] None None d);
      if coll then collapse d else Ok d.
End Measure.
