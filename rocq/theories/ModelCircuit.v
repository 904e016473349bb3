(** Model of the circuit layer: acqdp/circuit/circuit.py (operations, circuits, adjoint, control,
    superposition) and acqdp/circuit/converter.py (conversion to tensor networks).

    Simplifications, valid for the whole file: time steps are integers; the names and the [Tensor]/[State]/
    [Unitary] subclasses of operations, which only set the shape, are not distinguished from the class they
    derive from; the shape letters 'b' and 'd', which no class of the package uses, are left out; an operation
    does not change after it was put into a circuit (the code stores references). *)
From Verif Require Import Base Scalar NetSpec ModelArray ModelTN TNSpec ModelVal OpsSpec ModelOps ModelContract CircSpec.
Set Implicit Arguments.

(** one entry of [shape]: 'c', or a word over 'i' and 'o' *)
Inductive role : Type := RC | RW (w : word).
(** circuit.py:947 trans_dict *)
Definition role_word (r : role) : word := match r with RC => [LI; LO] | RW w => w end.
(** circuit.py:115-121 _input_indices "^[ibc]", _output_indices ".*[odc]$" *)
Definition role_in (r : role) : bool := match r with RC => true | RW w => starts_in w end.
Definition role_out (r : role) : bool := match r with RC => true | RW w => ends_out w end.
(** circuit.py:110-113 _indices_with_property *)
Definition positions (p : role -> bool) (sh : list role) : list nat :=
  map fst (filter (fun x => p (snd x)) (combine (seq 0 (length sh)) sh)).
(** the patterns "^c$", ".*o$" and "^i" *)
Definition is_ctrl (r : role) : bool := match r with RC => true | RW _ => false end.
Definition is_out (r : role) : bool := match r with RC => false | RW w => ends_out w end.
Definition is_in (r : role) : bool := match r with RC => false | RW w => starts_in w end.
(** x == 'io' or x == 'c' *)
Definition role_unitary (r : role) : bool := match r with RC => true | RW [LI; LO] => true | _ => false end.

(** an entry of [operations_by_name], circuit.py:827-829 *)
Record gate (A : Type) : Type := Gate { g_time : Z; g_qubits : list name; g_op : A }.
Arguments Gate {A} g_time g_qubits g_op.
Arguments g_time {A} g.
Arguments g_qubits {A} g.
Arguments g_op {A} g.
(** [operations_by_name], in insertion order *)
Definition circ (A : Type) : Type := list (name * gate A).

Section Containers.
  Context {A : Type}.

  (** circuit.py:783-787 max_time *)
  Definition max_time (c : circ A) : Z :=
    match c with
    | [] => (-1)%Z
    | p :: r => fold_left (fun m q => Z.max m (g_time (snd q))) r (g_time (snd p))
    end.

  (** circuit.py:817-830 append; [len] is len(operation.shape) *)
  Definition append (len : res nat) (a : A) (qubits : list name) (time : option Z) (nm : option name)
             (c : circ A) : res (circ A) :=
    let t := match time with Some t => t | None => (1 + max_time c)%Z end in
    let k := match nm with Some k => k | None => NT [NI t; NT qubits] end in
    if negb (nodupb qubits) then Err ValueError
    else do n <- len;
         if negb (length qubits =? n) then Err ValueError
         else Ok (set k (Gate t qubits a) c).

  (** sorted(set of times) *)
  Fixpoint zins (x : Z) (l : list Z) : list Z :=
    match l with
    | [] => [x]
    | y :: r => if (x <? y)%Z then x :: l else if (x =? y)%Z then l else y :: zins x r
    end.
  Definition times (c : circ A) : list Z := fold_right zins [] (map (fun p => g_time (snd p)) c).
  (** circuit.py:899-910 operations_by_time *)
  Definition at_time (c : circ A) (t : Z) : circ A := filter (fun p => Z.eqb (g_time (snd p)) t) c.
  Definition by_time (c : circ A) : list (Z * circ A) := map (fun t => (t, at_time c t)) (times c).
  Definition in_order (c : circ A) : circ A := concat (map snd (by_time c)).

  Definition qubits_of (c : circ A) : list name := concat (map (fun p => g_qubits (snd p)) c).
  (** circuit.py:924-933 all_qubits.  Simplification: when the names do not compare the code falls back on the
      order of their texts; every caller then runs into the TypeError of [shape], which is the error here. *)
  Definition all_qubits (c : circ A) : res (list name) := sort_by name_lt (dedup (qubits_of c)) [].

  Definition map_gate {B} (f : A -> B) (g : gate A) : gate B := Gate (g_time g) (g_qubits g) (f (g_op g)).
  Definition map_circ {B} (f : A -> B) (c : circ A) : circ B := map (fun p => (fst p, map_gate f (snd p))) c.
End Containers.

(** circuit.py:958 the pattern ^o?(io)*i?$ *)
Fixpoint io_star (w : word) : bool :=
  match w with
  | [] => true
  | [LI] => true
  | LI :: LO :: r => io_star r
  | _ => false
  end.
Definition pattern (w : word) : bool := match w with LO :: r => io_star r | _ => io_star w end.
(** circuit.py:961 *)
Definition truncate (w : word) : word := firstn (2 - length w mod 2) w.

(** the state of the loop at circuit.py:949-957: letters and last time of each qubit *)
Definition scan_t : Type := list (name * (word * option Z)).
Definition scan_get (q : name) (st : scan_t) : word * option Z :=
  match get q st with Some x => x | None => ([], None) end.
Definition late (last : option Z) (t : Z) : bool := match last with Some l => (t <=? l)%Z | None => false end.
(** circuit.py:952-957: the qubits of a gate, the first of them being number [i] *)
Fixpoint scan_gate (t : Z) (sh : res (list role)) (i : nat) (qs : list name) (st : scan_t) : res scan_t :=
  match qs with
  | [] => Ok st
  | q :: r =>
      let w := scan_get q st in
      if late (snd w) t then Err ValueError
      else do s <- sh;
           match nth_error s i with
           | None => Err IndexError
           | Some x => scan_gate t sh (Datatypes.S i) r (set q (fst w ++ role_word x, Some t) st)
           end
  end.
Fixpoint scan (c : circ (res (list role))) (st : scan_t) : res scan_t :=
  match c with
  | [] => Ok st
  | (_, g) :: r => do st <- scan_gate (g_time g) (g_op g) 0 (g_qubits g) st; scan r st
  end.
(** circuit.py:936-964 shape; every operation is given by its own shape *)
Definition circ_shape (c : circ (res (list role))) : res (list role) :=
  do st <- scan (in_order c) [];
  if forallb (fun p => pattern (fst (snd p))) st
  then do qs <- all_qubits c; Ok (map (fun q => RW (truncate (fst (scan_get q st)))) qs)
  else Err ValueError.

(** circuit.py:967-976 is_valid *)
Definition is_ok (r : res (list role)) : res bool :=
  match r with
  | Ok _ => Ok true
  | Err ValueError => Ok false
  | Err e => Err e
  end.

Section Ops.
  Variable S : scalar.
  Notation tval := (tval S).
  Local Open Scope K_scope.

  (** Operations.  [OPure], [OCtrl]: PureOperation and ControlledOperation with _tensor_pure and _tensor_control;
      [sa] is self_adjoint.  [OState b], [OMeas b]: the objects in CompState and CompMeas, which the converter
      treats specially.  [OImm]: ImmutableOperation that is not pure, with _tensor_density.  [OSuper]: the
      coefficients and operations of a SuperPosition.  [OCirc]: Circuit.  [OCCirc]: ControlledCircuit. *)
  Inductive op : Type :=
  | OPure (sa : bool) (sh : list role) (d : tval)
  | OCtrl (sa : bool) (sh : list role) (d : tval)
  | OState (b : bool)
  | OMeas (b : bool)
  | OImm (sh : list role) (d : tval)
  | OSuper (l : list (S * op))
  | OCirc (c : circ op)
  | OCCirc (cond : bool) (c : circ op).

  (** circuit.py:190-200, 415-425, 534-547 process, for tensor-valued data: the shape must be (2, ..., 2) *)
  Definition twos (n : nat) : shape_t := Some (repeat (Some 2%nat) n).
  Definition shape_is (d : tval) (n : nat) : bool := eqb (tval_shape d) (twos n).
  Definition count (p : role -> bool) (sh : list role) : nat := length (filter p sh).
  Definition mk_pure (sa : bool) (sh : list role) (d : tval) : res op :=
    if shape_is d (count is_in sh + count is_out sh) then Ok (OPure sa sh d) else Err ValueError.
  Definition mk_ctrl (sa : bool) (sh : list role) (d : tval) : res op :=
    if shape_is d (count is_ctrl sh + count is_in sh + count is_out sh) then Ok (OCtrl sa sh d) else Err ValueError.
  Definition mk_imm (sh : list role) (d : tval) : res op :=
    if shape_is d (2 * (count is_in sh + count is_out sh)) then Ok (OImm sh d) else Err ValueError.

  (** the shape of an operation; circuit.py:1017 ControlledCircuit, :1123-1140 SuperPosition *)
  Definition uncontrol (r : role) : role := match r with RC => RW [LI; LO] | _ => r end.
  Fixpoint op_shape (o : op) : res (list role) :=
    match o with
    | OPure _ sh _ | OCtrl _ sh _ | OImm sh _ => Ok sh
    | OState _ => Ok [RW [LO]]
    | OMeas _ => Ok [RW [LI]]
    | OSuper l => match l with
                  | [] => Err IndexError
                  | (_, a) :: _ => do sh <- op_shape a; Ok (map uncontrol sh)
                  end
    | OCirc c => circ_shape (map (fun p => match p with (k, Gate t q a) => (k, Gate t q (op_shape a)) end) c)
    | OCCirc _ c =>
        do sh <- circ_shape (map (fun p => match p with (k, Gate t q a) => (k, Gate t q (op_shape a)) end) c);
        Ok (RC :: sh)
    end.

  (** is_pure: circuit.py:254-269, 979-989, 1143-1148 *)
  Fixpoint op_pure (o : op) : res bool :=
    match o with
    | OPure _ _ _ | OCtrl _ _ _ | OState _ | OMeas _ | OCCirc _ _ | OSuper _ => Ok true
    | OImm _ _ => Ok false
    | OCirc c =>
        do v <- is_ok (op_shape (OCirc c));
        if v then (fix go (l : circ op) := match l with
                                           | [] => Ok true
                                           | (_, Gate _ _ a) :: r => do b <- op_pure a; do w <- go r; Ok (b && w)
                                           end) c
        else Ok false
    end.

  (** What the converter asks of an operation inside a circuit: its shape, is_pure, its place in CompState
      ([Some (true, index)]) or CompMeas ([Some (false, index)]), and its tensor. *)
  Record info : Type := Info {
    i_shape : res (list role);
    i_pure : res bool;
    i_fix : option (bool * nat);
    i_val : res tval
  }.

  (** ** converter.py:73-112: the network of a pure circuit *)

  (** dic, dic_out and all_edges.  dic and dic_in are always equal: a key is set in both and popped from both. *)
  Record wires : Type := Wires { w_in : list (name * name); w_out : list (name * name); w_all : list name }.
  (** :84-92 *)
  Fixpoint wire_outs (t : Z) (idx : nat) (qs : list name) (w : wires) : list name * wires :=
    match qs with
    | [] => ([], w)
    | q :: r =>
        match get q (w_in w) with
        | None =>
            let e := NT [NI (t + 1); NI (Z.of_nat idx); q] in
            let z := wire_outs t idx r (Wires (w_in w) (set q e (w_out w)) (w_all w)) in
            (e :: fst z, snd z)
        | Some e =>
            let z := wire_outs t idx r (Wires (del q (w_in w)) (w_out w) (w_all w)) in
            (e :: fst z, snd z)
        end
    end.
  (** :93-97 *)
  Fixpoint wire_ins (t : Z) (idx : nat) (qs : list name) (w : wires) : list name * wires :=
    match qs with
    | [] => ([], w)
    | q :: r =>
        let e := NT [NI t; NI (Z.of_nat idx); q] in
        let z := wire_ins t idx r (Wires (set q e (w_in w)) (w_out w) (w_all w)) in
        (e :: fst z, snd z)
    end.
  (** :98-101 *)
  Fixpoint new_wires (es : list name) (w : wires) : M (T := tval) wires :=
    match es with
    | [] => ret w
    | e :: r =>
        if mem e (w_all w) then new_wires r w
        else let! _ := add_edge e (Some 2%nat) in new_wires r (Wires (w_in w) (w_out w) (e :: w_all w))
    end.
  (** [qubits[i] for i in indices] *)
  Definition pick {X} (l : list X) (is : list nat) : res (list X) :=
    mapM (fun i => match nth_error l i with Some x => Ok x | None => Err IndexError end) is.
  Definition hd_res {X} (l : list X) : res X := match l with x :: _ => Ok x | [] => Err IndexError end.
  (** :79-107 one gate *)
  Definition wire_gate (idx : nat) (p : name * gate info) (w : wires) : M (T := tval) wires :=
    let g := snd p in
    let! sh := lift (i_shape (g_op g)) in
    let! oq := lift (pick (g_qubits g) (positions role_out sh)) in
    let! iq := lift (pick (g_qubits g) (positions role_in sh)) in
    let a := wire_outs (g_time g) idx oq w in
    let b := wire_ins (g_time g) idx iq (snd a) in
    let! w := new_wires (fst a ++ fst b) (snd b) in
    match i_fix (g_op g) with
    | Some (true, k) => let! e := lift (hd_res (fst a)) in fix_edge e [k] false ;; ret w
    | Some (false, k) => let! e := lift (hd_res (fst b)) in fix_edge e [k] false ;; ret w
    | None =>
        let! v := lift (i_val (g_op g)) in
        let! _ := add_node (fst p) (Some (fst a ++ fst b)) v false in ret w
    end.
  Fixpoint wire_gates (idx : nat) (l : circ info) (w : wires) : M (T := tval) wires :=
    match l with
    | [] => ret w
    | p :: r => let! w := wire_gate idx p w in wire_gates (Datatypes.S idx) r w
    end.
  Fixpoint wire_times (l : list (Z * circ info)) (w : wires) : M (T := tval) wires :=
    match l with
    | [] => ret w
    | p :: r => let! w := wire_gates 0 (snd p) w in wire_times r w
    end.
  (** [d[i] for i in sorted(d)] *)
  Definition in_key_order (d : list (name * name)) : res (list name) :=
    do ks <- sort_by name_lt (keys d) [];
    mapM (fun k => match get k d with Some e => Ok e | None => Err KeyError end) ks.
  (** :989 np.all([...]) *)
  Fixpoint all_pure (c : circ info) : res bool :=
    match c with
    | [] => Ok true
    | (_, g) :: r => do b <- i_pure (g_op g); do w <- all_pure r; Ok (b && w)
    end.
  Definition circ_pure (c : circ info) : res bool :=
    do v <- is_ok (circ_shape (map_circ i_shape c)); if v then all_pure c else Ok false.
  (** :31-32 and :73-112 *)
  Definition circ_net (c : circ info) : res tval :=
    do p <- circ_pure c;
    if negb p then Err ValueError
    else build (let! w := wire_times (rev (by_time c)) (Wires [] [] []) in
                let! os := lift (in_key_order (w_out w)) in
                let! is := lift (in_key_order (w_in w)) in
                modify (fun n => with_opens n (os ++ is))).

  (** ** Control *)

  (** converter.py:42-61: the network of a controlled operation *)
  Definition ctrl_edges (sh : list role) : list name :=
    let lc := positions is_ctrl sh in
    let lo := positions is_out sh in
    let li := positions is_in sh in
    let z i := NI (Z.of_nat i) in
    map (fun i => z (if mem i lc then index_of i lc else length lc + index_of i lo)%nat) (positions role_out sh)
    ++ map (fun i => z (if mem i lc then index_of i lc else length lc + length lo + index_of i li)%nat)
           (positions role_in sh).
  Definition ctrl_net (sh : list role) (d : tval) : res tval :=
    build (let! _ := add_node (NS "TC") None d false in
           modify (fun n => with_opens n (ctrl_edges sh))).

  (** circuit.py:1081-1101: the data of the controlled version of an operation of shape [sh] with tensor_control
      [d]: np.stack of the identity (on the wires that are not controls, diagonal in the controls) and the
      contracted tensor.  [contract] is its meaning, the value. *)
  Definition ident (lc n : nat) (x : list nat) : S := kdelta (eqb (skipn lc (firstn n x)) (skipn n x)).
  Definition stacked (cond : bool) (sh : list role) (d : tval) : tval :=
    let lc := count is_ctrl sh in
    let n := length sh in
    VTensor (Some (ND (repeat 2%nat (1 + lc + 2 * (n - lc)))
      (fun x => match x with
                | b :: r => if Nat.eqb b (if cond then 1 else 0)%nat then tval_value d r else ident lc n r
                | [] => 0
                end))).
  (** circuit.py:1077-1078 *)
  Definition may_control (pure : res bool) (sh : res (list role)) : res unit :=
    do p <- pure;
    if p then do s <- sh; if forallb role_unitary s then Ok tt else Err ValueError else Err ValueError.

  (** converter.py:33-41: the circuit built for a controlled circuit.  The new circuit has the control on qubit 0
      and the k-th qubit of the old one on qubit k+1; the gates follow the insertion order of the old circuit. *)
  Fixpoint ctrl_circ (qs : list name) (l : circ info) (acc : circ info) : res (circ info) :=
    match l with
    | [] => Ok acc
    | (_, g) :: r =>
        do acc <- append (do s <- i_shape (g_op g); Ok (length s)) (g_op g)
                         (NI 0 :: map (fun q => NI (1 + Z.of_nat (index_of q qs))) (g_qubits g)) None None acc;
        ctrl_circ qs r acc
    end.

  (** ** converter.py:22-72 convert_pure.
      [conv o None] is o.tensor_pure; [conv o (Some b)] is Controlled(o, conditioned_on=b).tensor_pure.  When more
      than one exception is possible, another one than the code's may come first. *)
  Definition basis_vec (b : bool) : tval := VTensor (Some (nd_vec (if b then [0; 1] else [1; 0]))).
  Definition fix_of (o : op) : option (bool * nat) :=
    match o with
    | OState b => Some (true, if b then 1 else 0)%nat
    | OMeas b => Some (false, if b then 1 else 0)%nat
    | _ => None
    end.
  Definition info_of (o : op) (v : res tval) : info := Info (op_shape o) (op_pure o) (fix_of o) v.
  Definition ctl_info (o : op) (v : res tval) : info :=
    Info (do sh <- op_shape o; Ok (RC :: sh)) (Ok true) None v.
  (** :65-69; the two identifiers inside coef * tensor are any two different names *)
  Fixpoint super_terms (i : nat) (l : list (S * res tval)) (t : tsum S) : res tval :=
    match l with
    | [] => Ok (VSum (ts_terms t))
    | (c, v) :: r =>
        do v <- v;
        do w <- v_scale c (NI 1) (NI 0, v);
        match ts_add (NI (Z.of_nat i)) w t with
        | (_, Err e) => Err e
        | (t, Ok _) => super_terms (Datatypes.S i) r t
        end
    end.
  Fixpoint conv (o : op) (ctl : option bool) : res tval :=
    match ctl with
    | None =>
        match o with
        | OPure _ _ d => Ok d
        | OCtrl _ sh d => ctrl_net sh d
        | OState b | OMeas b => Ok (basis_vec b)
        | OImm _ _ => Err ValueError
        | OSuper l => super_terms 0 (map (fun p => match p with (c, a) => (c, conv a None) end) l) (ts_empty S)
        | OCirc c =>
            circ_net (map (fun p => match p with (k, Gate t q a) => (k, Gate t q (info_of a (conv a None))) end) c)
        | OCCirc cond c =>
            do qs <- all_qubits c;
            do cc <- ctrl_circ qs (map (fun p => match p with (k, Gate t q a) =>
                                      (k, Gate t q (ctl_info a (conv a (Some cond)))) end) c) [];
            circ_net cc
        end
    | Some cond =>
        do _ <- may_control (op_pure o) (op_shape o);
        match o with
        | OPure _ sh d | OCtrl _ sh d => ctrl_net (RC :: sh) (stacked cond sh d)
        | OState _ | OMeas _ | OImm _ _ => Err ValueError
        | OSuper l =>
            do v <- super_terms 0 (map (fun p => match p with (c, a) => (c, conv a None) end) l) (ts_empty S);
            do sh <- op_shape o;
            ctrl_net (RC :: sh) (stacked cond sh v)
        | OCirc c =>
            do qs <- all_qubits c;
            do cc <- ctrl_circ qs (map (fun p => match p with (k, Gate t q a) =>
                                      (k, Gate t q (ctl_info a (conv a (Some cond)))) end) c) [];
            circ_net cc
        | OCCirc _ _ => Err AttributeError
        end
    end.
  (** circuit.py:124-134 tensor_pure *)
  Definition tensor_pure (o : op) : res tval := conv o None.

  (** ** converter.py:132-195 convert_density *)

  (** dic and dic_out are always equal *)
  Record dwires : Type := DWires { dw_out : list (name * (Z * nat)); dw_in : list (name * (Z * nat)) }.
  Definition dname (e : Z * nat) (q : name) (s : string) : name :=
    NT [NI (fst e); NI (Z.of_nat (snd e)); q; NS s].
  (** :166-178 *)
  Fixpoint dens_ins (t : Z) (idx : nat) (qs : list name) (w : dwires) : list (name * (Z * nat)) * dwires :=
    match qs with
    | [] => ([], w)
    | q :: r =>
        match get q (dw_out w) with
        | None =>
            let z := dens_ins t idx r (DWires (dw_out w) (set q (t, idx) (dw_in w))) in
            ((q, (t, idx)) :: fst z, snd z)
        | Some e =>
            let z := dens_ins t idx r (DWires (del q (dw_out w)) (dw_in w)) in
            ((q, e) :: fst z, snd z)
        end
    end.
  (** :179-184 *)
  Fixpoint dens_outs (t : Z) (idx : nat) (qs : list name) (w : dwires) : list (name * (Z * nat)) * dwires :=
    match qs with
    | [] => ([], w)
    | q :: r =>
        let z := dens_outs t idx r (DWires (set q ((t + 1)%Z, idx) (dw_out w)) (dw_in w)) in
        ((q, ((t + 1)%Z, idx)) :: fst z, snd z)
    end.
  Definition dnames (l : list (name * (Z * nat))) (s : string) : list name := map (fun p => dname (snd p) (fst p) s) l.
  (** :157-185 one gate *)
  Definition dens_gate (idx : nat) (p : name * gate info) (w : dwires) : M (T := tval) dwires :=
    let g := snd p in
    let! sh := lift (i_shape (g_op g)) in
    let! iq := lift (pick (g_qubits g) (positions role_in sh)) in
    let! oq := lift (pick (g_qubits g) (positions role_out sh)) in
    let a := dens_ins (g_time g) idx iq w in
    let b := dens_outs (g_time g) idx oq (snd a) in
    let! v := lift (i_val (g_op g)) in
    let! _ := add_node (fst p) (Some (dnames (fst b) "p" ++ dnames (fst a) "p" ++ dnames (fst b) "d" ++ dnames (fst a) "d"))
                       v false in
    ret (snd b).
  Fixpoint dens_gates (idx : nat) (l : circ info) (w : dwires) : M (T := tval) dwires :=
    match l with
    | [] => ret w
    | p :: r => let! w := dens_gate idx p w in dens_gates (Datatypes.S idx) r w
    end.
  Fixpoint dens_times (l : list (Z * circ info)) (w : dwires) : M (T := tval) dwires :=
    match l with
    | [] => ret w
    | p :: r => let! w := dens_gates 0 (snd p) w in dens_times r w
    end.
  Definition dens_key_order (d : list (name * (Z * nat))) (s : string) : res (list name) :=
    do ks <- sort_by name_lt (keys d) [];
    mapM (fun k => match get k d with Some e => Ok (dname e k s) | None => Err KeyError end) ks.
  Definition dens_net (c : circ info) : res tval :=
    do v <- is_ok (circ_shape (map_circ i_shape c));
    if negb v then Err ValueError
    else build (let! w := dens_times (by_time c) (DWires [] []) in
                let! a := lift (dens_key_order (dw_out w) "p") in
                let! b := lift (dens_key_order (dw_in w) "p") in
                let! c := lift (dens_key_order (dw_out w) "d") in
                let! d := lift (dens_key_order (dw_in w) "d") in
                modify (fun n => with_opens n (a ++ b ++ c ++ d))).
  (** :143-150 a pure operation.  (~tp).expand() is modelled as the conjugate: expand keeps the value. *)
  Definition pure_density (tp : tval) : res tval :=
    do sh <- match tval_shape tp with Some sh => Ok sh | None => Err TypeError end;
    let n := length sh in
    do cj <- v_conj tp;
    build (let! _ := add_node (NS "TP") (Some (range_names n)) tp false in
           let! _ := add_node (NS "~TP") (Some (map (fun i => NI (Z.of_nat i)) (seq n n))) cj false in
           modify (fun m => with_opens m (range_names (2 * n)))).
  Fixpoint dens (o : op) : res tval :=
    match o with
    | OPure _ _ _ | OCtrl _ _ _ | OState _ | OMeas _ | OCCirc _ _ => do v <- conv o None; pure_density v
    | OImm _ d => Ok d
    | OSuper _ => Err ValueError
    | OCirc c => dens_net (map (fun p => match p with (k, Gate t q a) => (k, Gate t q (info_of a (dens a))) end) c)
    end.
  (** circuit.py:136-147 tensor_density *)
  Definition tensor_density (o : op) : res tval := dens o.

  (** ** Building circuits *)

  Definition op_len (o : op) : res nat := do s <- op_shape o; Ok (length s).
  Definition c_append (o : op) (qs : list name) (time : option Z) (nm : option name) (c : circ op) : res (circ op) :=
    append (op_len o) o qs time nm c.

  (** circuit.py:1002-1009 __copy__ *)
  Fixpoint c_copy (l acc : circ op) : res (circ op) :=
    match l with
    | [] => Ok acc
    | (k, g) :: r => do acc <- c_append (g_op g) (g_qubits g) (Some (g_time g)) (Some k) acc; c_copy r acc
    end.
  (** circuit.py:97-103: append the operations of the other circuit in time order *)
  Fixpoint c_extend (l acc : circ op) : res (circ op) :=
    match l with
    | [] => Ok acc
    | (_, g) :: r => do acc <- c_append (g_op g) (g_qubits g) None None acc; c_extend r acc
    end.
  (** circuit.py:78-108 __or__ *)
  Definition op_or (a b : op) : res op :=
    match a with
    | OCirc c =>
        do c <- c_copy c [];
        match b with
        | OCirc d => do r <- c_extend (in_order d) c; Ok (OCirc r)
        | _ => do n <- op_len b; do r <- c_append b (range_names n) None None c; Ok (OCirc r)
        end
    | _ =>
        do m <- op_len a;
        do c <- c_append a (range_names m) None None [];
        do n <- op_len b;
        do r <- c_append b (range_names n) None None c; Ok (OCirc r)
    end.
  (** circuit.py:59-76 __mul__ *)
  Definition op_mul (a b : op) : res op :=
    do m <- op_len a;
    do c <- c_append a (range_names m) (Some 0%Z) None [];
    do n <- op_len b;
    do r <- c_append b (map (fun i => NI (Z.of_nat i)) (seq m n)) (Some 0%Z) None c;
    Ok (OCirc r).

  (** circuit.py:1077-1087: Controlled of a circuit; :1017 the constructor evaluates the shape *)
  Definition controlled_circuit (cond : bool) (c : circ op) : res op :=
    do _ <- may_control (op_pure (OCirc c)) (op_shape (OCirc c)); Ok (OCCirc cond c).
  (** circuit.py:1077-1101: Controlled of another operation; converter.py:114-130 tensor_control *)
  Definition tensor_control (o : op) : res tval :=
    match o with
    | OCtrl _ _ d => Ok d
    | OCCirc _ _ => Err AttributeError
    | _ => do p <- op_pure o; if p then conv o None else Err ValueError
    end.
  Definition controlled (cond : bool) (o : op) : res op :=
    match o with
    | OCirc c => controlled_circuit cond c
    | _ => do _ <- may_control (op_pure o) (op_shape o);
           do d <- tensor_control o;
           do sh <- op_shape o;
           mk_ctrl false (RC :: sh) (stacked cond sh d)
    end.

  (** adjoint: circuit.py:427-438 PureOperation, :554-567 ControlledOperation, :991-1000 Circuit, :1047-1048
      ControlledCircuit, :1151-1154 SuperPosition.  Simplification: set_adjoint_op is modelled for the computational
      basis (circuit.py:697-698) only.  The constructors' checks are repeated where the code calls them, except the
      checks of SuperPosition, which the adjoints of its components meet when the components do. *)
  Definition flip_role (r : role) : role := match r with RC => RC | RW w => RW (flip_word w) end.
  Fixpoint adj (o : op) : res op :=
    match o with
    | OPure true _ _ | OCtrl true _ _ => Ok o
    | OPure false sh d =>
        let li := count is_in sh in
        let lo := count is_out sh in
        do c <- v_conj d;
        do t <- v_transpose (NI 0, c) (seq lo li ++ seq 0 lo);
        mk_pure false (map flip_role sh) t
    | OCtrl false sh d =>
        let lc := count is_ctrl sh in
        let li := count is_in sh in
        let lo := count is_out sh in
        do c <- v_conj d;
        do t <- v_transpose (NI 0, c) (seq 0 lc ++ seq (lc + lo) li ++ seq lc lo);
        mk_ctrl false (map flip_role sh) t
    | OState b => Ok (OMeas b)
    | OMeas b => Ok (OState b)
    | OImm _ _ => Err RuntimeError (* NotImplementedError *)
    | OSuper l =>
        do r <- (fix go l := match l with
                             | [] => Ok []
                             | (c, a) :: r => do b <- adj a; do w <- go r; Ok ((kconj c, b) :: w)
                             end) l;
        Ok (OSuper r)
    | OCirc c =>
        do p <- op_pure (OCirc c);
        if p then
          do r <- (fix go (l acc : circ op) :=
                     match l with
                     | [] => Ok acc
                     | (_, Gate t q a) :: r =>
                         do b <- adj a;
                         do acc <- c_append b q (Some (max_time c - t)%Z) None acc;
                         go r acc
                     end) c [];
          Ok (OCirc r)
        else Err ValueError
    | OCCirc cond c =>
        do p <- op_pure (OCirc c);
        if p then
          do r <- (fix go (l acc : circ op) :=
                     match l with
                     | [] => Ok acc
                     | (_, Gate t q a) :: r =>
                         do b <- adj a;
                         do acc <- c_append b q (Some (max_time c - t)%Z) None acc;
                         go r acc
                     end) c [];
          do _ <- op_shape (OCirc r);
          Ok (OCCirc cond r)
        else Err ValueError
    end.
End Ops.
Arguments OPure {S} sa sh d.
Arguments OCtrl {S} sa sh d.
Arguments OState {S} b.
Arguments OMeas {S} b.
Arguments OImm {S} sh d.
Arguments OSuper {S} l.
Arguments OCirc {S} c.
Arguments OCCirc {S} cond c.
Arguments Info {S} i_shape i_pure i_fix i_val.
