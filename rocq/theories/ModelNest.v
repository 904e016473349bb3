(** Model of the nesting operations of acqdp/tensor_network/tensor_network.py: subtn, encapsulate, expand. *)
From Verif Require Import Base Scalar NetSpec ModelArray ModelTN TNSpec ModelVal.
Set Implicit Arguments.

Section Nest.
  Variable S : scalar.
  Notation tval := (tval S).
  Notation net := (tn tval).
  Notation M := (M (T := tval)).

  (** The order in which Python iterates over a set, given by its elements. *)
  Variable ord : list name -> list name.

  (** tensor_network.py:208-221 edges_by_name_from_nodes_by_name *)
  Definition node_edges (n : net) (xs : list name) : list name := dedup (concat (map (adj_edges n) xs)).
  (** tensor_network.py:223-233 closed_edges_by_name_from_nodes_by_name *)
  Definition inner_edges (n : net) (xs : list name) : list name :=
    filter (fun e => forallb (fun x => mem x xs) (adj_nodes n e) && negb (mem e (opens n))) (node_edges n xs).
  (** tensor_network.py:235-246 nodes_by_name_from_edges_by_name *)
  Definition edge_nodes (n : net) (es : list name) : list name := dedup (concat (map (adj_nodes n) es)).
  (** tensor_network.py:200-206 closed_edges_by_name *)
  Definition closed_edges (n : net) : list name := filter (fun e => negb (mem e (opens n))) (keys (edges n)).
  (** 'fix_to' in self.network.nodes[(1, e)] *)
  Definition is_fixed (n : net) (e : name) : bool :=
    match get e (edges n) with Some ed => match e_fix ed with Some _ => true | None => false end | None => false end.

  (** tensor_network.py:651-658: the new network *)
  Definition sub_node (n : net) (x : name) : M unit :=
    match get x (nodes n) with
    | None => raise KeyError
    | Some nd => match n_val nd with
                 | None => raise KeyError
                 | Some t => let! _ := add_node x (Some (n_legs nd)) t false in ret tt
                 end
    end.
  Definition sub_edge (n : net) (e : name) : M unit :=
    match get e (edges n) with
    | None => raise KeyError
    | Some ed => let! m := getst in
                 if has e (edges m) then modify (fun m => with_edges m (set e ed (edges m))) else raise KeyError
    end.
  Definition sub_net (n : net) (xs es os : list name) : net * res unit :=
    match new_tn os None with
    | (m, Err e) => (m, Err e)
    | (m, Ok _) => (foreach (sub_node n) xs ;; foreach (sub_edge n) es) m
    end.

  (** tensor_network.py:635-662 subtn; a set given as an argument is given by its elements *)
  Definition sub_parts (n : net) (xs es : option (list name)) : res (list name * list name) :=
    match xs with
    | None =>
        match es with
        | None => Ok (keys (nodes n), ord (closed_edges n))
        | Some es => if forallb (fun e => has e (edges n)) es then Ok (ord (edge_nodes n es), es) else Err KeyError
        end
    | Some xs =>
        if forallb (fun x => has x (nodes n)) xs then
          match es with
          | None => Ok (xs, ord (inner_edges n xs))
          | Some es => if forallb (fun e => mem e (inner_edges n xs)) es then Ok (xs, es) else Err AssertionError
          end
        else Err AssertionError
    end.
  Definition outer_edges (n : net) (xs es : list name) : list name :=
    filter (fun e => negb (is_fixed n e)) (ord (filter (fun e => negb (mem e es)) (node_edges n xs))).
  Definition subtn (n : net) (xs es os : option (list name)) : res (list name * list name * net) :=
    do p <- sub_parts n xs es;
    match xs, es with
    | None, None => Ok (fst p, snd p, copy_tn n)
    | _, _ =>
        let all := outer_edges n (fst p) (snd p) in
        do os <- match os with
                 | None => Ok all
                 | Some l => if forallb (fun e => mem e all) l && forallb (fun e => mem e l) all then Ok l
                             else Err AssertionError
                 end;
        match sub_net n (fst p) (snd p) os with
        | (m, Ok _) => Ok (fst p, snd p, m)
        | (_, Err e) => Err e
        end
    end.

  (** tensor_network.py:664-675 encapsulate; [x] is stn_name, or the identifier of the new network *)
  Definition encapsulate (xs es os : option (list name)) (x : name) : M (name * net) :=
    let! n := getst in
    let! p := lift (subtn n xs es os) in
    let '(ys, fs, m) := p in
    foreach (fun y => let! _ := pop_node y in ret tt) ys ;;
    modify (fun n => fold_left (@graph_del_edge tval) fs n) ;;
    let! x := add_node x (Some (opens m)) (VNet m) false in
    ret (x, m).

  (** tensor_network.py:692-696: merging two nodes does not give a larger one *)
  Definition no_larger (n : net) (a b : name) : bool :=
    let ea := adj_edges n a in
    let eb := adj_edges n b in
    let fix_ := length (filter (fun e => mem e eb && (length (adj_nodes n e) =? 2)) ea) in
    let sz := Nat.max (length ea) (length eb) in
    (Z.of_nat (length (dedup (ea ++ eb))) - Z.of_nat fix_ <=? Z.of_nat sz)%Z.
  (** itertools.combinations(l, 2) *)
  Fixpoint combinations2 (l : list name) : list (name * name) :=
    match l with
    | [] => []
    | a :: r => map (fun b => (a, b)) r ++ combinations2 r
    end.
  (** tensor_network.py:689-702: the first pair that is merged, if any *)
  Definition simplify_pair (n : net) : option (name * name) :=
    find (fun p => no_larger n (fst p) (snd p)) (concat (map (fun e => combinations2 (adj_nodes n e)) (keys (edges n)))).
  (** tensor_network.py:685-703 simplify; [ids] are the identifiers of the networks it creates, one
      for each round of the loop *)
  Fixpoint simplify (ids : list name) (recursive : bool) : M unit :=
    let! n := getst in
    match simplify_pair n with
    | None => ret tt
    | Some (a, b) =>
        match ids with
        | [] => raise OutOfFuel
        | x :: r => let! _ := encapsulate (Some [a; b]) None None x in
                    if recursive then simplify r recursive else ret tt
        end
    end.

  (** tensor_network.py:255-260 comb_name *)
  Definition tup (x : name) : list name := match x with NT l => l | _ => [x] end.
  Definition comb_name (att x : name) : name := NT (tup att ++ tup x).
  (** G.add_node(e, **attributes) for an edge: the attributes present replace the old ones *)
  Definition upd_edge (old : option edge) (ed : edge) : edge :=
    match old with
    | None => ed
    | Some o => Edge (match e_dim ed with Some d => Some d | None => e_dim o end)
                     (match e_fix ed with Some f => Some f | None => e_fix o end)
    end.
  Definition put_edge (l : list (name * edge)) (p : name * edge) : list (name * edge) :=
    set (fst p) (upd_edge (get (fst p) l) (snd p)) l.
  Definition put_node (l : list (name * node tval)) (p : name * node tval) : list (name * node tval) :=
    set (fst p) (snd p) l.
  (** tensor_network.py:250-266 add_attribute_to_names.  networkx.relabel_nodes in place adds each
      node under its new name with its attributes and removes the old one.  Simplification: it takes
      the nodes in a topological order when a new name is also an old one; the order only matters
      when two nodes get the same new name. *)
  Definition add_attribute (att : name) (n : net) : net :=
    let f := comb_name att in
    TN (fold_left put_node (map (fun p => (f (fst p), Node (map f (n_legs (snd p))) true (n_val (snd p)))) (nodes n)) [])
       (fold_left put_edge (map (fun p => (f (fst p), snd p)) (edges n)) [])
       (add_adjs [] (map (fun p => (f (fst p), f (snd p))) (adj n)))
       (map f (opens n)) (idc n).
  (** tensor_network.py:624-625: network.add_nodes_from and add_edges_from *)
  Definition graph_union (n m : net) : net :=
    TN (fold_left put_node (nodes m) (nodes n)) (fold_left put_edge (edges m) (edges n))
       (add_adjs (adj n) (adj m)) (opens n) (idc n).

  (** networkx.connected_components of the graph with edges [ps]; the components are listed in the
      order in which their first vertex was added *)
  Fixpoint put_pair (a b : name) (cs : list (list name)) : list (list name) :=
    match cs with
    | [] => [dedup [a; b]]
    | c :: r => if mem a c || mem b c
                then dedup (a :: b :: c ++ concat (filter (fun c => mem a c || mem b c) r))
                     :: filter (fun c => negb (mem a c || mem b c)) r
                else c :: put_pair a b r
    end.
  Definition components (ps : list (name * name)) : list (list name) :=
    fold_left (fun cs p => put_pair (fst p) (snd p) cs) ps [].

  (** tensor_network.py:628: (connection[i], open_edges[i]) for i in range(len(open_edges)) *)
  Fixpoint wires (conn os : list name) : res (list (name * name)) :=
    match os with
    | [] => Ok []
    | o :: r => match conn with
                | [] => Err IndexError
                | c :: q => do l <- wires q r; Ok ((c, o) :: l)
                end
    end.
  (** tensor_network.py:629-631 *)
  Definition join (conn : list name) (c : list name) : M unit :=
    let! to := lift (sorted_last (ord (filter (fun e => mem e conn) c))) in
    let! _ := merge_edges (ord c) to in
    ret tt.
  (** tensor_network.py:616-617: nodes_by_name is a list, so the subscript raises for every view *)
  Definition view_error (n : net) (x : name) : exn :=
    match x with
    | NI z => if ((- Z.of_nat (length (nodes n)) <=? z) && (z <? Z.of_nat (length (nodes n))))%Z then TypeError else IndexError
    | _ => TypeError
    end.
  (** tensor_network.py:615-631: one round of the loop of expand; [exp] is the call on the copy *)
  Definition expand_node (exp : M unit) (x : name) : M unit :=
    let! n := getst in
    match get x (nodes n) with
    | None => raise KeyError
    | Some nd =>
        match n_val nd with
        | None => raise KeyError
        | Some (VView _ _) => raise (view_error n x)
        | Some (VNet m) =>
            let! _ := pop_node x in
            match exp (copy_tn m) with
            | (_, Err e) => raise e
            | (m1, Ok _) =>
                let m2 := add_attribute x m1 in
                modify (fun n => graph_union n m2) ;;
                let! ps := lift (wires (n_legs nd) (opens m2)) in
                foreach (join (n_legs nd)) (components ps)
            end
        | Some _ => ret tt
        end
    end.
  (** tensor_network.py:594-633 expand.  [fuel] bounds the nesting depth.  The comparison passed to
      cmp_to_key never returns a negative number, so sorted() keeps the order of nodes_by_name. *)
  Fixpoint expand (fuel : nat) (xs : option (list name)) : M unit :=
    match fuel with
    | O => raise OutOfFuel
    | Datatypes.S fuel => let! n := getst in
                foreach (expand_node (expand fuel None)) (match xs with None => keys (nodes n) | Some l => l end)
    end.
End Nest.
