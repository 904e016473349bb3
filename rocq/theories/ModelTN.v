(** Model of acqdp/tensor_network/tensor_network.py: the attributed hypergraph
    (a networkx Graph used as a Tanner graph) and its edit operations.

    The Python object is modelled by a record; an edit operation is a function from the
    current state to the new state and a result, so that the state left behind by an
    operation that raises is part of the model.

    Simplifications, valid for the whole file: [dtype] and [signature] (a random hash) are not
    modelled; Python sets of fix values are kept as lists in the order described at [fix_edge];
    node names are always passed explicitly (when the code uses [tensor.identifier] the caller
    passes that integer); negative list indices are not modelled. *)
From Coq Require Import DecimalString.
From Verif Require Import Base.
Set Implicit Arguments.

(** Attributes of the graph node [(1, edge_name)]: tensor_network.py:408 ('dim') and
    tensor_network.py:456-462 ('fix_to').  A missing 'dim' attribute and [dim=None] are both
    [None]. *)
Record edge : Type := Edge { e_dim : option nat; e_fix : option (list nat) }.

(** Attributes of the graph node [(0, node_name)]: tensor_network.py:326 ('edges') and
    tensor_network.py:386 ('tensor', absent until update_node stored it).  [n_mut] tells
    whether 'edges' is a list (true) or a range object (false, tensor_network.py:321). *)
Record node (T : Type) : Type := Node { n_legs : list name; n_mut : bool; n_val : option T }.
Arguments Node {T} n_legs n_mut n_val.
Arguments n_legs {T} n.
Arguments n_mut {T} n.
Arguments n_val {T} n.

(** tensor_network.py:35-41: the graph nodes [(0, _)] and [(1, _)] in insertion order, the
    graph edges (pairs node name, edge name), the open edges and the name counter. *)
Record tn (T : Type) : Type := TN {
  nodes : list (name * node T);
  edges : list (name * edge);
  adj : list (name * name);
  opens : list name;
  idc : nat
}.
Arguments TN {T} nodes edges adj opens idc.
Arguments nodes {T} t.
Arguments edges {T} t.
Arguments adj {T} t.
Arguments opens {T} t.
Arguments idc {T} t.

(** What the hypergraph code needs to know about the tensors stored in the nodes: their shape
    (tensor_valued.py:104-118; [None] for an undetermined tensor) and the three constant
    tensors used by [complete_delta]. *)
Class Payload (T : Type) := {
  pshape : T -> option (list (option nat));
  p_one : T;
  p_eye : nat -> T;
  p_diag : list bool -> T
}.

Definition range_names (n : nat) : list name := map (fun i => NI (Z.of_nat i)) (seq 0 n).

Definition nat_str (n : nat) : string := NilEmpty.string_of_uint (Nat.to_uint n).

Section Model.
  Context {T : Type}.
  Notation net := (tn T).

  Definition with_nodes (n : net) x : net := TN x (edges n) (adj n) (opens n) (idc n).
  Definition with_edges (n : net) x : net := TN (nodes n) x (adj n) (opens n) (idc n).
  Definition with_adj (n : net) x : net := TN (nodes n) (edges n) x (opens n) (idc n).
  Definition with_opens (n : net) x : net := TN (nodes n) (edges n) (adj n) x (idc n).
  Definition with_idc (n : net) x : net := TN (nodes n) (edges n) (adj n) (opens n) x.

  Definition M (A : Type) : Type := net -> net * res A.
  Definition ret {A} (a : A) : M A := fun n => (n, Ok a).
  Definition raise {A} (e : exn) : M A := fun n => (n, Err e).
  Definition mbind {A B} (m : M A) (f : A -> M B) : M B :=
    fun n => match m n with
             | (n', Ok a) => f a n'
             | (n', Err e) => (n', Err e)
             end.
  Definition getst : M net := fun n => (n, Ok n).
  Definition modify (f : net -> net) : M unit := fun n => (f n, Ok tt).
  Definition lift {A} (r : res A) : M A := fun n => (n, r).
End Model.

Notation "'let!' x ':=' m 'in' f" := (mbind m (fun x => f))
  (at level 200, x pattern, m at level 100, f at level 200, right associativity).
Notation "m ;; f" := (mbind m (fun _ => f)) (at level 61, right associativity).

Section Ops.
  Context {T : Type} `{Payload T}.
  Notation net := (tn T).
  Notation M := (@M T).

  Fixpoint foreach {X} (f : X -> M unit) (l : list X) : M unit :=
    match l with
    | [] => ret tt
    | x :: r => f x ;; foreach f r
    end.

  (** ** networkx primitives *)

  (** Graph.add_edge((0, n), (1, e)) between existing graph nodes *)
  Definition add_adj1 (l : list (name * name)) (p : name * name) : list (name * name) :=
    if mem p l then l else l ++ [p].
  Definition add_adjs (l : list (name * name)) (ps : list (name * name)) : list (name * name) :=
    fold_left add_adj1 ps l.
  (** list(network[(0, n)]) and list(network[(1, e)]) *)
  Definition adj_edges (n : net) (x : name) : list name :=
    map snd (filter (fun p => eqb x (fst p)) (adj n)).
  Definition adj_nodes (n : net) (e : name) : list name :=
    map fst (filter (fun p => eqb e (snd p)) (adj n)).
  (** Graph.remove_node((0, x)) / remove_node((1, e)): drops the incident graph edges *)
  Definition graph_del_node (n : net) (x : name) : net :=
    with_adj (with_nodes n (del x (nodes n))) (filter (fun p => negb (eqb x (fst p))) (adj n)).
  Definition graph_del_edge (n : net) (e : name) : net :=
    with_adj (with_edges n (del e (edges n))) (filter (fun p => negb (eqb e (snd p))) (adj n)).

  (** set 'edges' of a node: [network.nodes[(0, x)]['edges'] = l] *)
  Definition set_legs (n : net) (x : name) (l : list name) : net :=
    match get x (nodes n) with
    | Some nd => with_nodes n (set x (Node l true (n_val nd)) (nodes n))
    | None => n
    end.

  (** replace 'edges' of node [x] by a function of its old value *)
  Definition map_legs (f : list name -> list name) (n : net) (x : name) : net :=
    match get x (nodes n) with
    | Some nd => set_legs n x (f (n_legs nd))
    | None => n
    end.

  (** ** TensorNetwork methods *)

  (** tensor_network.py:278-289 update_dimension *)
  Definition update_dim1 (e : name) (d : option nat) : M unit :=
    let! n := getst in
    match get e (edges n) with
    | None => raise ValueError
    | Some ed =>
        match e_dim ed with
        | None => modify (fun n => with_edges n (set e (Edge d (e_fix ed)) (edges n)))
        | Some x =>
            match d with
            | None => ret tt
            | Some y => if x =? y then ret tt else raise AssertionError
            end
        end
    end.
  Definition update_dimension (dic : list (name * option nat)) : M unit :=
    foreach (fun p => update_dim1 (fst p) (snd p)) dic.

  (** tensor_network.py:404-411 add_edge *)
  Definition auto_name (k : nat) : name := NS ("_" ++ nat_str k)%string.
  Definition add_edge (e : name) (d : option nat) : M name :=
    let! n := getst in
    let! e := match e with
              | NN => modify (fun n => with_idc n (S (idc n))) ;; ret (auto_name (idc n))
              | _ => ret e
              end in
    (if has e (edges n) then
       match d with
       | None => ret tt
       | Some _ => update_dimension [(e, d)]
       end
     else modify (fun n => with_edges n (edges n ++ [(e, Edge d None)]))) ;;
    ret e.

  (** tensor_network.py:421-424 open_edge *)
  Definition open_edge (e : name) (d : option nat) : M unit :=
    let! n := getst in
    (if has e (edges n) then ret tt else let! _ := add_edge e d in ret tt) ;;
    modify (fun n => with_opens n (opens n ++ [e])).

  (** tensor_network.py:432-435 close_edge *)
  Definition close_edge (e : name) : M unit :=
    modify (fun n => with_opens n (filter (fun x => negb (eqb e x)) (opens n))).

  (** {edge: shape[i] for i, edge in enumerate(edges)} as a Python dict *)
  Fixpoint dict_of {B} (l : list (name * B)) (acc : list (name * B)) : list (name * B) :=
    match l with [] => acc | (k, v) :: r => dict_of r (set k v acc) end.

  (** tensor_network.py:379-391 update_node *)
  Definition update_node (x : name) (t : T) : M unit :=
    let! n := getst in
    match get x (nodes n) with
    | None => raise KeyError
    | Some nd =>
        modify (fun n => with_nodes n (set x (Node (n_legs nd) (n_mut nd) (Some t)) (nodes n))) ;;
        match pshape t with
        | Some sh =>
            if length (n_legs nd) <=? length sh
            then update_dimension (dict_of (combine (n_legs nd) sh) [])
            else raise IndexError
        | None => update_dimension (dict_of (map (fun e => (e, None)) (n_legs nd)) [])
        end
    end.

  (** one round of the loop tensor_network.py:327-331 *)
  Definition add_leg (sh : option (list (option nat))) (p : nat * name) : M unit :=
    match sh with
    | None => let! _ := add_edge (snd p) None in ret tt
    | Some l =>
        match nth_error l (fst p) with
        | None => raise IndexError
        | Some d => let! _ := add_edge (snd p) d in ret tt
        end
    end.

  (** Graph.add_edges_from([((0, x), (1, e)) ...]) (tensor_network.py:332); a graph node that
      does not exist is created without attributes *)
  Definition graph_connect (x : name) (es : list name) (n : net) : net :=
    let n1 := fold_left (fun n e => if has e (edges n) then n
                                    else with_edges n (edges n ++ [(e, Edge None None)])) es n in
    with_adj n1 (add_adjs (adj n1) (map (fun e => (x, e)) es)).

  (** tensor_network.py:309-338 add_node (with an explicit node name) *)
  Definition add_node (x : name) (es : option (list name)) (t : T) (is_open : bool) : M name :=
    let! n := getst in
    if has x (nodes n) then raise ValueError
    else
      let! p := match es with
                | Some l => ret (l, true)
                | None => match pshape t with
                          | Some sh => ret (range_names (length sh), false)
                          | None => raise IndexError
                          end
                end in
      let (legs, mut) := p in
      modify (fun n => with_nodes n (nodes n ++ [(x, Node legs mut None)])) ;;
      foreach (add_leg (pshape t)) (enum legs) ;;
      modify (graph_connect x legs) ;;
      update_node x t ;;
      (if is_open then foreach (fun e => open_edge e None) legs else ret tt) ;;
      ret x.

  (** tensor_network.py:349-352 pop_node *)
  Definition pop_node (x : name) : M (node T) :=
    let! n := getst in
    match get x (nodes n) with
    | None => raise KeyError
    | Some nd => modify (fun n => graph_del_node n x) ;; ret nd
    end.

  (** tensor_network.py:365-367 remove_node *)
  Definition remove_node (x : name) : M (node T) :=
    let! nd := pop_node x in
    modify (fun n => with_opens n (opens n ++ n_legs nd)) ;; ret nd.

  (** tensor_network.py:450-464 fix_edge.  [vals] is the Python set of values (an int is a
      singleton).  Simplification: the list obtained from a set of small integers is ascending;
      an intersection keeps the order of the older list. *)
  Definition fix_edge (e : name) (vals : list nat) (change_fix : bool) : M unit :=
    let! n := getst in
    match get e (edges n) with
    | None => raise KeyError
    | Some ed =>
        match e_dim ed with
        | None => raise TypeError
        | Some d =>
            if forallb (fun v => v <? d) vals then
              let new := filter (fun v => mem v vals) (seq 0 d) in
              match e_fix ed with
              | Some old =>
                  if change_fix then
                    match new, old with
                    | v :: _, _ :: r =>
                        modify (fun n => with_edges n (set e (Edge (Some d) (Some (v :: r))) (edges n)))
                    | _, _ => raise IndexError
                    end
                  else
                    modify (fun n => with_edges n
                      (set e (Edge (Some d) (Some (filter (fun v => mem v vals) old))) (edges n)))
              | None =>
                  modify (fun n => with_edges n (set e (Edge (Some d) (Some new)) (edges n)))
              end
            else raise AssertionError
        end
    end.

  (** tensor_network.py:468-472 fix_index *)
  Definition fix_index (i : nat) (vals : list nat) : M unit :=
    let! n := getst in
    match nth_error (opens n) i with
    | None => raise IndexError
    | Some e => fix_edge e vals false ;; modify (fun n => with_opens n (del_nth i (opens n)))
    end.

  (** tensor_network.py:479-488 fix *)
  Definition strip_leg (e : name) : net -> name -> net :=
    map_legs (filter (fun i => negb (eqb e i))).
  Definition fix1 (n : net) (e : name) : net :=
    match get e (edges n) with
    | Some ed =>
        match e_fix ed with
        | Some _ =>
            let n1 := fold_left (strip_leg e) (dedup (adj_nodes n e)) n in
            if mem e (opens n1)
            then with_adj n1 (filter (fun p => negb (eqb e (snd p))) (adj n1))
            else graph_del_edge n1 e
        | None => n
        end
    | None => n
    end.
  Definition fix_all (n : net) : net := fold_left fix1 (keys (edges n)) n.

  (** names used by complete_delta, tensor_network.py:510-512, 525 *)
  Definition delta_node (e : name) (k : nat) : name := NT [NS "*"; e; NI (Z.of_nat k)].
  Definition delta_edge (e : name) (k : nat) : name := NT [e; NI (Z.of_nat k)].

  (** [network.nodes[(1, e)]['dim']] *)
  Definition dim_of (e : name) : M nat :=
    let! n := getst in
    match get e (edges n) with
    | None => raise KeyError
    | Some ed => match e_dim ed with None => raise TypeError | Some d => ret d end
    end.

  (** tensor_network.py:504-512: the loop over the open edges; [cnt] is the dictionary
      open_edge_names *)
  Fixpoint delta_open (l : list (nat * name)) (cnt : list (name * nat)) : M (list (name * nat)) :=
    match l with
    | [] => ret cnt
    | (i, e) :: r =>
        match get e cnt with
        | None => delta_open r (set e 0 cnt)
        | Some k =>
            let k := S k in
            let! d := dim_of e in
            let! _ := add_node (delta_node e k) (Some [e; delta_edge e k]) (p_eye d) false in
            modify (fun n => with_opens n (set_nth i (delta_edge e k) (opens n))) ;;
            delta_open r (set e k cnt)
        end
    end.
  (** tensor_network.py:513-525: one round of the second loop; [old] is the set [edges] of
      line 500 *)
  Definition delta_fix (old : list name) (p : name * nat) : M unit :=
    let (e, k) := p in
    let! n := getst in
    match get e (edges n) with
    | None => raise KeyError
    | Some ed =>
        match e_fix ed with
        | Some fx =>
            let! d := dim_of e in
            modify (fun n => with_edges n (set e (Edge (Some d) None) (edges n))) ;;
            let! _ := add_node (delta_node e 0) (Some [e])
                        (p_diag (map (fun i => mem i fx) (seq 0 d))) false in ret tt
        | None =>
            if negb (mem e old) && (k =? 0)
            then let! d := dim_of e in
                 let! _ := add_node (delta_node e 0) (Some [e])
                             (p_diag (map (fun _ => true) (seq 0 d))) false in ret tt
            else ret tt
        end
    end.
  (** tensor_network.py:497-526 complete_delta *)
  Definition star : name := NS "*".
  Definition complete_delta : M unit :=
    let! n := getst in
    if has star (nodes n) then ret tt
    else
      let old := map snd (adj n) in
      (match nodes n with
       | [] => let! _ := add_node star (Some []) p_one false in ret tt
       | _ => ret tt
       end) ;;
      let! cnt := delta_open (enum (opens n)) [] in
      foreach (delta_fix old) cnt.

  (** Python's [<] on names: integers, strings and tuples; TypeError between
      different types.  Equal elements of tuples are skipped. *)
  Fixpoint name_lt (a b : name) : res bool :=
    match a, b with
    | NI x, NI y => Ok (Z.ltb x y)
    | NS x, NS y => Ok (String.ltb x y)
    | NT l, NT m =>
        (fix go l m := match l, m with
                       | [], [] => Ok false
                       | [], _ :: _ => Ok true
                       | _ :: _, [] => Ok false
                       | x :: r, y :: q => if eqb x y then go r q else name_lt x y
                       end) l m
    | _, _ => Err TypeError
    end.
  (** sorted(l)[-1]: IndexError when empty; TypeError when the scan meets two names that do not
      compare (simplification: Python's sort may not compare exactly these pairs). *)
  Fixpoint max_from (m : name) (l : list name) : res name :=
    match l with
    | [] => Ok m
    | x :: r => do b <- name_lt m x; max_from (if b then x else m) r
    end.
  Definition sorted_last (l : list name) : res name :=
    match l with [] => Err IndexError | x :: r => max_from x r end.

  (** tensor_network.py:537-540: the dimension found last *)
  Fixpoint last_dim (es : list name) (d : option nat) : M (option nat) :=
    match es with
    | [] => ret d
    | e :: r => let! n := getst in
                match get e (edges n) with
                | None => raise KeyError
                | Some ed => last_dim r (e_dim ed)
                end
    end.
  (** tensor_network.py:547-553 *)
  Definition merge1 (m : name) (e : name) : M unit :=
    let! n := getst in
    match get e (edges n) with
    | None => raise KeyError
    | Some ed =>
        match e_fix ed with
        | Some fx => fix_edge m fx false
        | None => ret tt
        end ;;
        modify (fun n => with_adj n (add_adjs (adj n) (map (fun x => (x, m)) (adj_nodes n e)))) ;;
        (if eqb e m then ret tt else modify (fun n => graph_del_edge n e))
    end.
  Definition merge_label (es : list name) (m e : name) : name := if mem e es then m else e.
  Definition merge_legs (es : list name) (m : name) : net -> name -> net :=
    map_legs (map (merge_label es m)).
  (** tensor_network.py:537-568 merge_edges *)
  Definition merge_edges (es : list name) (merge_to : name) : M name :=
    let! d := last_dim es None in
    let! m := match merge_to with
              | NN => lift (sorted_last es)
              | _ => let! n := getst in
                     if has merge_to (edges n) then ret merge_to else add_edge merge_to None
              end in
    update_dimension [(m, d)] ;;
    let! n := getst in
    let touched := dedup (concat (map (adj_nodes n) es)) in
    foreach (merge1 m) es ;;
    modify (fun n => fold_left (merge_legs es m) touched n) ;;
    modify (fun n => with_opens n (map (merge_label es m) (opens n))) ;;
    let! n := getst in
    if forallb (fun e => has e (edges n)) (opens n) then ret m else raise AssertionError.

  (** tensor_network.py:582-592 rewire *)
  Definition rewire (x : name) (leg : nat) (to : name) : M unit :=
    let! n := getst in
    match get x (nodes n) with
    | None => raise KeyError
    | Some nd =>
        match n_val nd with
        | None => raise KeyError
        | Some t =>
            let! d := match pshape t with
                      | None => ret None
                      | Some sh => match nth_error sh leg with
                                   | None => raise IndexError
                                   | Some d => ret d
                                   end
                      end in
            match nth_error (n_legs nd) leg with
            | None => raise IndexError
            | Some old =>
                let! to := if has to (edges n) then ret to else add_edge to d in
                if n_mut nd then
                  let legs := set_nth leg to (n_legs nd) in
                  modify (fun n => set_legs n x legs) ;;
                  modify (fun n => with_adj n (add_adj1 (adj n) (x, to))) ;;
                  if mem old legs then ret tt
                  else let! n := getst in
                       if mem (x, old) (adj n)
                       then modify (fun n => with_adj n (filter (fun p => negb (eqb (x, old) p)) (adj n)))
                       else raise NetworkXError
                else raise TypeError
            end
        end
    end.

  (** TensorNetwork.__init__, tensor_network.py:35-42 (names other than None) *)
  Definition empty_tn : net := TN [] [] [] [] 0.
  Definition new_tn (os : list name) (d : option nat) : net * res unit :=
    (foreach (fun e => let! _ := add_edge e d in ret tt) os ;;
     modify (fun n => with_opens n (opens n ++ os)) ;;
     modify (fun n => with_idc n 0)) empty_tn.

  (** TensorNetwork.copy, tensor_network.py:739-745, seen by value: same graph and open edges, the
      counter restarts at 0.  (Sharing of the leg lists is the subject of ModelHeap.) *)
  Definition copy_tn (n : net) : net := with_idc n 0.

  (** tensor_network.py:139-141 shape *)
  Definition shape_tn (n : net) : res (list (option nat)) :=
    mapM (fun e => match get e (edges n) with
                   | None => Err KeyError
                   | Some ed => Ok (e_dim ed)
                   end) (opens n).
End Ops.
