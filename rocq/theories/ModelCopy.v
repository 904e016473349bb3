(** Model of the sharing between a network and its copies: tensor_network.py:739-753 copy and
    __deepcopy__.

    networkx's Graph.copy() makes a new attribute dictionary for every graph node, but the lists in
    it ('edges' of a node, 'fix_to' of an edge) and the tensors are the same objects as in the
    original.  Here these lists live in a store of cells and a network holds their addresses.
    Simplification: the tensors are values, not cells; none of the edit calls changes a tensor it
    finds in a node, they only put another one in its place. *)
From Verif Require Import Base ModelTN ModelHist.
Set Implicit Arguments.

(** what an edit call does to a list attribute: leave the list object, store a new list, or assign
    to an item of the list object *)
Inductive mode := Keep | Fresh | InPlace.

Definition addr := nat.

Section Store.
  Context {X D : Type} `{Eqb X}.
  Definition alloc (v : X) (cs : list X) : list X * addr := (cs ++ [v], length cs).
  (** the cell that holds [v] after the call; [old] is the cell of the attribute before it.  (A list
      that is kept and has changed does not occur; it gets a new cell.) *)
  Definition put (m : mode) (old : option addr) (v : X) (cs : list X) : list X * addr :=
    match old with
    | None => alloc v cs
    | Some a => match m with
                | InPlace => (set_nth a v cs, a)
                | Fresh => alloc v cs
                | Keep => match nth_error cs a with
                          | Some w => if eqb w v then (cs, a) else alloc v cs
                          | None => alloc v cs
                          end
                end
    end.
  Definition old_addr (x : name) (old : list (name * option addr)) : option addr :=
    match get x old with Some (Some a) => Some a | _ => None end.
  Fixpoint store (md : name -> mode) (l : list (name * (option X * D))) (old : list (name * option addr)) (cs : list X)
    : list X * list (name * (option addr * D)) :=
    match l with
    | [] => (cs, [])
    | (x, (None, d)) :: r => let '(cs, q) := store md r (del x old) cs in (cs, (x, (None, d)) :: q)
    | (x, (Some v, d)) :: r =>
        let '(cs, a) := put (md x) (old_addr x old) v cs in
        let '(cs, q) := store md r (del x old) cs in
        (cs, (x, (Some a, d)) :: q)
    end.
  Definition fetch (cs : list X) (l : list (name * (option addr * D))) : list (name * (option X * D)) :=
    map (fun p => (fst p, (match fst (snd p) with Some a => nth_error cs a | None => None end, snd (snd p)))) l.
  Definition addrs (l : list (name * (option addr * D))) : list (name * option addr) :=
    map (fun p => (fst p, fst (snd p))) l.
End Store.

Section Copy.
  Context {T : Type} `{Payload T}.
  Notation net := (tn T).

  (** the attribute lists of all networks *)
  Record heap := Heap { h_legs : list (list name); h_fix : list (list nat) }.
  (** a TensorNetwork object: its dictionaries are its own, the lists in them are addresses.
      open_edges is copied by copy() (tensor_network.py:740) and is part of the object. *)
  Record hnet := HNet {
    o_nodes : list (name * (option addr * (bool * option T)));
    o_edges : list (name * (option addr * option nat));
    o_adj : list (name * name);
    o_opens : list name;
    o_idc : nat
  }.
  Definition split_node (nd : node T) : option (list name) * (bool * option T) := (Some (n_legs nd), (n_mut nd, n_val nd)).
  Definition join_node (p : option (list name) * (bool * option T)) : node T :=
    Node (match fst p with Some l => l | None => [] end) (fst (snd p)) (snd (snd p)).
  Definition split_edge (ed : edge) : option (list nat) * option nat := (e_fix ed, e_dim ed).
  Definition join_edge (p : option (list nat) * option nat) : edge := Edge (snd p) (fst p).
  (** what the object looks like to its user *)
  Definition look (h : heap) (o : hnet) : net :=
    TN (map (fun p => (fst p, join_node (snd p))) (fetch (h_legs h) (o_nodes o)))
       (map (fun p => (fst p, join_edge (snd p))) (fetch (h_fix h) (o_edges o)))
       (o_adj o) (o_opens o) (o_idc o).

  (** which lists a call replaces (tensor_network.py:482-483 fix, :555-560 merge_edges) and which it
      changes in place (:588 rewire) *)
  Definition legs_mode (c : call T) (n : net) (x : name) : mode :=
    match c with
    | CRewire y _ _ => if eqb x y then InPlace else Keep
    | CMergeEdges es _ => if existsb (fun e => mem (x, e) (adj n)) es then Fresh else Keep
    | CFix => if existsb (fun p => match e_fix (snd p) with Some _ => mem (x, fst p) (adj n) | None => false end) (edges n)
              then Fresh else Keep
    | _ => Keep
    end.
  (** tensor_network.py:456-462: change_fix assigns to the first item of the list, otherwise a new list
      is stored; merge_edges (:548-549) calls fix_edge on the target *)
  Definition fix_mode (c : call T) (n : net) (e : name) : mode :=
    match c with
    | CFixEdge y _ true => if eqb e y then InPlace else Keep
    | CFixEdge y _ false => if eqb e y then Fresh else Keep
    | CFixIndex i _ => match nth_error (opens n) i with Some y => if eqb e y then Fresh else Keep | None => Keep end
    | CMergeEdges es m =>
        match (if eqb m NN then sorted_last es else Ok m) with
        | Ok t => if eqb e t && existsb (fun a => match get a (edges n) with
                                                  | Some ed => match e_fix ed with Some _ => true | None => false end
                                                  | None => false
                                                  end) es then Fresh else Keep
        | Err _ => Keep
        end
    | _ => Keep
    end.
  Definition save (lm fm : name -> mode) (h : heap) (old : list (name * option addr) * list (name * option addr)) (n : net)
    : heap * hnet :=
    let '(ls, ns) := store lm (map (fun p => (fst p, split_node (snd p))) (nodes n)) (fst old) (h_legs h) in
    let '(fs, es) := store fm (map (fun p => (fst p, split_edge (snd p))) (edges n)) (snd old) (h_fix h) in
    (Heap ls fs, HNet ns es (adj n) (opens n) (idc n)).
  (** an edit call on an object *)
  Definition edit (c : call T) (h : heap) (o : hnet) : heap * hnet * res unit :=
    let n := look h o in
    let '(n', r) := do_call c n in
    let '(h', o') := save (legs_mode c n) (fix_mode c n) h (addrs (o_nodes o), addrs (o_edges o)) n' in
    (h', o', r).
  (** tensor_network.py:739-745 copy: the name counter starts again *)
  Definition copy_obj (o : hnet) : hnet := HNet (o_nodes o) (o_edges o) (o_adj o) (o_opens o) 0.
  (** tensor_network.py:747-753 __deepcopy__: every list is new, then every node is updated with a
      copy of its tensor *)
  Definition deep_val (n : net) : net * res unit :=
    foreach (fun x => let! n := getst in
                      match get x (nodes n) with
                      | Some nd => match n_val nd with Some t => update_node x t | None => raise KeyError end
                      | None => raise KeyError
                      end) (keys (nodes n)) (with_idc n 0).

  (** ** programs that work with several objects *)
  Inductive action :=
  | ACopy (i : nat)                 (* y = x.copy() *)
  | ADeep (i : nat)                 (* y = copy.deepcopy(x) *)
  | AEdit (i : nat) (c : call T).   (* x.c(...), exceptions caught *)
  (** the objects made so far; a deepcopy that raised leaves its variable unset *)
  Record world := World { w_heap : heap; w_objs : list (option hnet) }.
  Definition act (w : world) (a : action) : world :=
    match a with
    | ACopy i => World (w_heap w) (w_objs w ++ [match nth_error (w_objs w) i with Some (Some o) => Some (copy_obj o) | _ => None end])
    | ADeep i =>
        match nth_error (w_objs w) i with
        | Some (Some o) => match deep_val (look (w_heap w) o) with
                           | (n, Ok _) => let '(h, o') := save (fun _ => Fresh) (fun _ => Fresh) (w_heap w) ([], []) n in
                                          World h (w_objs w ++ [Some o'])
                           | _ => World (w_heap w) (w_objs w ++ [None])
                           end
        | _ => World (w_heap w) (w_objs w ++ [None])
        end
    | AEdit i c =>
        match nth_error (w_objs w) i with
        | Some (Some o) => let '(h, o', _) := edit c (w_heap w) o in World h (set_nth i (Some o') (w_objs w))
        | _ => w
        end
    end.
  Definition looks (w : world) : list (option net) := map (option_map (look (w_heap w))) (w_objs w).
  (** a program starts with one network, of which no copies exist *)
  Definition start (n : net) : world :=
    let '(h, o) := save (fun _ => Fresh) (fun _ => Fresh) (Heap [] []) ([], []) n in World h [Some o].
End Copy.
