(** * The meaning of operations

    Only definitions: the amplitude of each operation of the package between the bits of its inputs and of its
    outputs, in terms of the circuit specification (CircSpec). *)
From Coq Require Import Sorting.Sorted Sorting.Permutation.
From Verif Require Import Base Scalar NetSpec ModelArray ModelTN ModelVal OpsSpec ModelContract CircSpec ModelCircuit.
Set Implicit Arguments.

Section Sem.
  Variable S : scalar.
  Local Open Scope K_scope.
  Definition ampl : Type := list nat -> list nat -> S.

  (** a gate of a circuit whose operation has the given shape and amplitudes, as an operation on wires *)
  Definition gact (g : gate (list role * ampl)) : act S :=
    Act (g_qubits g) (map role_word (fst (g_op g))) (snd (g_op g)).
  (** the operations of a circuit in order of time, on the register of all its qubits *)
  Definition circ_acts (c : circ (list role * ampl)) : list (act S) := map (fun p => gact (snd p)) (in_order c).
  Definition circ_amp (c : circ (list role * ampl)) : ampl :=
    match all_qubits c with
    | Ok qs => amplitude qs (circ_acts c)
    | Err _ => fun _ _ => 0
    end.

  (** among the bits of the wires with [p], those of the wires with [q] *)
  Fixpoint sel (p q : role -> bool) (sh : list role) (x : list nat) : list nat :=
    match sh with
    | [] => []
    | r :: sh =>
        if p r then match x with
                    | [] => []
                    | b :: x => if q r then b :: sel p q sh x else sel p q sh x
                    end
        else sel p q sh x
    end.
  (** block diagonal in the control wires *)
  Definition ctrl_amp (sh : list role) (f : list nat -> S) : ampl :=
    fun o i => kdelta (eqb (sel role_out is_ctrl sh o) (sel role_in is_ctrl sh i))
               * f (sel role_out is_ctrl sh o ++ sel role_out is_out sh o ++ sel role_in is_in sh i).

  Definition bit (b : bool) : nat := if b then 1 else 0.
  (** the operation [a] when the first wire carries [cond], the identity otherwise *)
  Definition when_amp (cond : bool) (a : ampl) : ampl :=
    fun o i => match o, i with
               | b :: o, b' :: i =>
                   kdelta (Nat.eqb b b') * (if Nat.eqb b (bit cond) then a o i else kdelta (eqb o i))
               | _, _ => 0
               end.

  Definition shape_or (o : op S) : list role := match op_shape o with Ok s => s | Err _ => [] end.

  Fixpoint op_amp (o : op S) : ampl :=
    match o with
    | OPure _ _ d => fun o i => tval_value d (o ++ i)
    | OCtrl _ sh d => ctrl_amp sh (tval_value d)
    | OState b => fun o _ => kdelta (eqb o [bit b])
    | OMeas b => fun _ i => kdelta (eqb i [bit b])
    | OImm _ _ => fun _ _ => 0
    | OSuper l => fun o i => sumf (fun p => match p with (c, a) => c * op_amp a o i end) l
    | OCirc c => circ_amp (map (fun p => match p with (k, Gate t q a) => (k, Gate t q (shape_or a, op_amp a)) end) c)
    | OCCirc cond c =>
        when_amp cond
          (circ_amp (map (fun p => match p with (k, Gate t q a) => (k, Gate t q (shape_or a, op_amp a)) end) c))
    end.

  (** [Controlled] of the operation is meant to work: its wires all run through it, and a circuit has gates, all of
      them controllable, that were appended in order of time *)
  Definition earlier (p q : name * gate (op S)) : Prop := (g_time (snd p) <= g_time (snd q))%Z.
  Inductive controllable : op S -> Prop :=
  | ct_pure sa sh d : forallb role_unitary sh = true -> controllable (OPure sa sh d)
  | ct_ctrl sa sh d : forallb role_unitary sh = true -> controllable (OCtrl sa sh d)
  | ct_super l sh : op_shape (OSuper l) = Ok sh -> forallb role_unitary sh = true -> controllable (OSuper l)
  | ct_circ c sh : c <> [] -> StronglySorted earlier c ->
      op_shape (OCirc c) = Ok sh -> forallb role_unitary sh = true ->
      (forall k g, In (k, g) c -> controllable (g_op g)) -> controllable (OCirc c).

  (** What the constructors check and keep: tensors have one bond of dimension 2 per wire, and data; the components
      of a superposition are pure with the same inputs and outputs; each gate of a circuit has its own name, its
      qubits are distinct and as many as its operation has. *)
  Inductive op_wf : op S -> Prop :=
  | wf_pure sa sh d : complete d -> count is_ctrl sh = 0%nat ->
      tval_shape d = twos (count is_in sh + count is_out sh) -> op_wf (OPure sa sh d)
  | wf_ctrl sa sh d : complete d ->
      tval_shape d = twos (count is_ctrl sh + count is_in sh + count is_out sh) -> op_wf (OCtrl sa sh d)
  | wf_state b : op_wf (OState b)
  | wf_meas b : op_wf (OMeas b)
  | wf_imm sh d : complete d -> count is_ctrl sh = 0%nat ->
      tval_shape d = twos (2 * (count is_in sh + count is_out sh)) -> op_wf (OImm sh d)
  | wf_super l ins outs : l <> [] ->
      (forall c a, In (c, a) l -> op_wf a) -> (forall c a, In (c, a) l -> op_pure a = Ok true) ->
      (forall c a, In (c, a) l -> exists sh, op_shape a = Ok sh /\ positions role_in sh = ins /\ positions role_out sh = outs) ->
      op_wf (OSuper l)
  | wf_circ c : NoDup (keys c) -> (forall k g, In (k, g) c -> op_wf (g_op g)) ->
      (forall k g, In (k, g) c -> NoDup (g_qubits g) /\ op_len (g_op g) = Ok (length (g_qubits g))) -> op_wf (OCirc c)
  | wf_ccirc cond c : op_wf (OCirc c) -> op_pure (OCirc c) = Ok true -> controllable (OCirc c) -> op_wf (OCCirc cond c).

  (** The guard for adjoints: operations flagged as self-adjoint are so; the gates of a circuit differ in time or
      qubits; there is no controlled circuit. *)
  Definition self_adjoint (o : op S) (sh : list role) : Prop :=
    map flip_role sh = sh /\
    forall x y, bits (count role_out sh) x -> bits (count role_in sh) y -> op_amp o y x = kconj (op_amp o x y).
  Inductive reversible : op S -> Prop :=
  | rv_pure sa sh d : (sa = true -> self_adjoint (OPure sa sh d) sh) -> reversible (OPure sa sh d)
  | rv_ctrl sa sh d : (sa = true -> self_adjoint (OCtrl sa sh d) sh) -> reversible (OCtrl sa sh d)
  | rv_state b : reversible (OState b)
  | rv_meas b : reversible (OMeas b)
  | rv_super l : (forall c a, In (c, a) l -> reversible a) -> reversible (OSuper l)
  | rv_circ c : NoDup (map (fun p => (g_time (snd p), g_qubits (snd p))) c) ->
      (forall k g, In (k, g) c -> reversible (g_op g)) -> reversible (OCirc c).

  (** the result is a tensor with one bond of dimension 2 per output and per input, whose entries are the amplitudes *)
  Definition tensor_ok (r : res (tval S)) (sh : list role) (a : ampl) : Prop :=
    exists v, r = Ok v /\ complete v /\ tval_shape v = twos (count role_out sh + count role_in sh) /\
      forall o i, bits (count role_out sh) o -> bits (count role_in sh) i -> tval_value v (o ++ i) = a o i.

  (** ** Circuits as they are built and used *)

  (** calls of append: operation, qubits, time step and name if given *)
  Record call : Type := Call { c_op : op S; c_qubits : list name; c_time : option Z; c_name : option name }.
  Fixpoint appends (l : list call) (c : circ (op S)) : res (circ (op S)) :=
    match l with
    | [] => Ok c
    | x :: r => do c <- c_append (c_op x) (c_qubits x) (c_time x) (c_name x) c; appends r c
    end.
  (** the first time step after the circuit *)
  Definition next_time (c : circ (op S)) (t : Z) : Prop :=
    (c = [] /\ t = 0%Z) \/
    (exists p, In p c /\ t = (1 + g_time (snd p))%Z /\ forall q, In q c -> (g_time (snd q) <= g_time (snd p))%Z).
  (** what the calls ask for: each one adds an operation, none takes one away *)
  Inductive placed : list call -> circ (op S) -> Prop :=
  | pl_nil : placed [] []
  | pl_snoc l c x t k : placed l c ->
      (c_time x = Some t \/ c_time x = None /\ next_time c t) ->
      (c_name x = Some k \/ c_name x = None /\ k = NT [NI t; NT (c_qubits x)]) ->
      placed (l ++ [x]) (c ++ [(k, Gate t (c_qubits x) (c_op x))]).

  (** the gates of [c] in an order that respects time *)
  Definition time_ordered (c l : circ (op S)) : Prop := Permutation c l /\ StronglySorted earlier l.
  (** the qubits that a circuit uses, sorted *)
  Definition used (c : circ (op S)) (q : name) : Prop := exists k g, In (k, g) c /\ In q (g_qubits g).
  Definition register (c : circ (op S)) (Q : list name) : Prop :=
    (forall q, In q Q <-> used c q) /\ StronglySorted (fun a b => name_lt a b = Ok true) Q.
  (** the names of the qubits compare with each other *)
  Definition names_compare (c : circ (op S)) : Prop :=
    forall x y, used c x -> used c y -> x <> y -> exists b, name_lt x y = Ok b.
  (** no qubit is used twice at a time *)
  Definition once_at_a_time (c : circ (op S)) : Prop :=
    ForallOrdPairs (fun p q => g_time (snd p) = g_time (snd q) ->
                               forall x, In x (g_qubits (snd p)) -> ~ In x (g_qubits (snd q))) c.
  (** the gates as operations on wires *)
  Definition acts_of (l : circ (op S)) : list (act S) :=
    map (fun p => Act (g_qubits (snd p)) (map role_word (shape_or (g_op (snd p)))) (op_amp (g_op (snd p)))) l.
End Sem.
