(** * Model of acqdp/tensor_network/undirected_contraction_tree.py

    The graph is the list of its nodes with their neighbours in insertion order, as networkx keeps them.
    [u_sub] holds the data of the edges: the key (u, v) is graph[u][v][v]['subscripts'], the subscripts on
    the side of v of the edge between u and v.  Subscripts are numbers, sets of them ascending lists. *)
From Coq Require Import List Arith ZArith Lia Bool.
From Verif Require Import Base PathSpec ModelOrder ModelOpt.
Import ListNotations.
Set Implicit Arguments.
Open Scope nat_scope.

Record uct := Uct {
  u_n : nat;
  u_open : nset;
  u_leaf : list nset;
  u_adj : list (nat * list nat);
  u_par : list (nat * nat);
  u_root : nat * nat;
  u_sub : list ((nat * nat) * nset);
  u_ncost : list (nat * Z);
  u_rcost : Z;
  u_cost : Z
}.
Definition w_graph (t : uct) adj par root sub : uct :=
  Uct (u_n t) (u_open t) (u_leaf t) adj par root sub (u_ncost t) (u_rcost t) (u_cost t).
Definition w_cost (t : uct) ncost rcost cost : uct :=
  Uct (u_n t) (u_open t) (u_leaf t) (u_adj t) (u_par t) (u_root t) (u_sub t) ncost rcost cost.

(** nx.Graph: neighbours, add_edge, remove_edge *)
Definition nbs (adj : list (nat * list nat)) (v : nat) : list nat := match get v adj with Some l => l | None => [] end.
Definition add_nb (u v : nat) (adj : list (nat * list nat)) : list (nat * list nat) :=
  set u (if mem v (nbs adj u) then nbs adj u else nbs adj u ++ [v]) adj.
Definition add_edge (u v : nat) adj := add_nb v u (add_nb u v adj).
Definition del_nb (u v : nat) (adj : list (nat * list nat)) : list (nat * list nat) :=
  set u (filter (fun x => negb (x =? v)) (nbs adj u)) adj.
Definition del_edge (u v : nat) adj := del_nb v u (del_nb u v adj).
(** [c for c in self.graph[v] if c != u] *)
Definition others (adj : list (nat * list nat)) (v u : nat) : list nat := filter (fun c => negb (c =? u)) (nbs adj v).

(** undirected_contraction_tree.py:45-46 is_leaf *)
Definition is_leaf (n v : nat) : bool := v <? n.

(** undirected_contraction_tree.py:48-57 preprocess_edge: the new edge data and the set returned *)
Fixpoint preprocess (fuel n : nat) (leaf : list nset) adj (sub : list ((nat * nat) * nset)) (u v : nat)
  : res (list ((nat * nat) * nset) * nset) :=
  match get (u, v) sub with
  | Some s => Ok (sub, s)
  | None =>
      if is_leaf n v then
        match nth_error leaf v with
        | Some s => Ok (set (u, v) s sub, s)
        | None => Err KeyError
        end
      else
        match fuel with
        | 0 => Err OutOfFuel
        | S fuel =>
            match others adj v u with
            | [c0; c1] =>
                do d0 <- preprocess fuel n leaf adj sub v c0;
                do d1 <- preprocess fuel n leaf adj (fst d0) v c1;
                Ok (set (u, v) (sunion (snd d0) (snd d1)) (fst d1), sunion (snd d0) (snd d1))
            | _ => Err AssertionError
            end
        end
  end.

Definition edge_sub (sub : list ((nat * nat) * nset)) (u v : nat) : res nset :=
  match get (u, v) sub with Some s => Ok s | None => Err KeyError end.
(** undirected_contraction_tree.py:59-63 open_subscripts_at_edge *)
Definition open_at (n : nat) (opens : nset) sub (u v : nat) : res nset :=
  do s <- edge_sub sub u v;
  if is_leaf n v then Ok s
  else do o <- edge_sub sub v u; Ok (sinter s (sunion o opens)).
(** undirected_contraction_tree.py:65-69 compute_cost *)
Definition pair_cost (s0 s1 s : nset) : Z :=
  let c := (2 ^ Z.of_nat (length (sunion (sunion s0 s1) s)))%Z in
  if nonempty (sdiff (sunion s0 s1) s) then (c * 2)%Z else c.
(** undirected_contraction_tree.py:71-77 compute_root_cost *)
Definition compute_root_cost (t : uct) : res uct :=
  let '(u, v) := u_root t in
  do s0 <- open_at (u_n t) (u_open t) (u_sub t) u v;
  do s1 <- open_at (u_n t) (u_open t) (u_sub t) v u;
  let c := pair_cost s0 s1 (u_open t) in
  Ok (w_cost t (u_ncost t) c (u_cost t - u_rcost t + c)%Z).
(** the cost assigned to a node by :79-87 *)
Definition node_cost (t : uct) (v : nat) : res Z :=
  match get v (u_par t) with
  | None => Err KeyError
  | Some p =>
      match others (u_adj t) v p with
      | [c0; c1] =>
          do s0 <- open_at (u_n t) (u_open t) (u_sub t) v c0;
          do s1 <- open_at (u_n t) (u_open t) (u_sub t) v c1;
          do s <- open_at (u_n t) (u_open t) (u_sub t) p v;
          Ok (pair_cost s0 s1 s)
      | _ => Err AssertionError
      end
  end.
(** undirected_contraction_tree.py:79-87 compute_node_cost *)
Definition compute_node_cost (t : uct) (v : nat) : res uct :=
  do c <- node_cost t v;
  let old := match get v (u_ncost t) with Some z => z | None => 0%Z end in
  Ok (w_cost t (set v c (u_ncost t)) (u_rcost t) (u_cost t - old + c)%Z).

(** undirected_contraction_tree.py:22-31 the loop over path[:-1]; [k] is t *)
Fixpoint build (adj : list (nat * list nat)) (par : list (nat * nat)) (ops : list nat) (k : nat) (p : lpath)
  : res (list (nat * list nat) * list (nat * nat) * list nat) :=
  match p with
  | [] => Ok (adj, par, ops)
  | [i0; j0] :: r =>
      let i := if j0 <? i0 then j0 else i0 in
      let j := if j0 <? i0 then i0 else j0 in
      do a <- pop_nth j ops;
      do b <- pop_nth i (snd a);
      let v := fst a in
      let u := fst b in
      build (add_edge v k (add_edge u k adj)) (set v k (set u k par)) (snd b ++ [k]) (S k) r
  | _ => Err ValueError
  end.
(** each edge of the graph once; the order does not matter *)
Definition edge_list (adj : list (nat * list nat)) : list (nat * nat) :=
  flat_map (fun p => map (fun v => (fst p, v)) (filter (fun v => fst p <? v) (snd p))) adj.
(** undirected_contraction_tree.py:11-43 __init__ without the stem.  Simplification: the equation is given as the lists of subscripts. *)
Definition uct_init (lhs : list (list nat)) (rhs : list nat) (p : lpath) : res uct :=
  let n := length lhs in
  if n =? 1 then Err ValueError
  else
    let leaf := map mkset lhs in
    do b <- build (map (fun i => (i, [])) (seq 0 n)) [] (seq 0 n) n (removelast p);
    let '(adj, par, ops) := b in
    match ops with
    | [u; v] =>
        let adj := add_edge u v adj in
        let par := set v u (set u v par) in
        do sub <- foldM (fun sub e =>
                    do d <- preprocess (2 * n) n leaf adj sub (fst e) (snd e);
                    do d <- preprocess (2 * n) n leaf adj (fst d) (snd e) (fst e);
                    Ok (fst d)) [] (edge_list adj);
        do t <- compute_root_cost (Uct n (mkset rhs) leaf adj par (u, v) sub [] 0 0);
        foldM compute_node_cost t (seq n (n - 2))
    | _ => Err ValueError
    end.

(** undirected_contraction_tree.py:89-94 get_internal_path *)
Fixpoint internal_path (fuel n : nat) adj (par : list (nat * nat)) (v : nat) : res (list (nat * nat * nat)) :=
  if is_leaf n v then Ok []
  else
    match fuel with
    | 0 => Err OutOfFuel
    | S fuel =>
        match get v par with
        | None => Err KeyError
        | Some p =>
            match others adj v p with
            | [c0; c1] =>
                do a <- internal_path fuel n adj par c0;
                do b <- internal_path fuel n adj par c1;
                Ok (a ++ b ++ [(c0, c1, v)])
            | _ => Err ValueError
            end
        end
    end.
(** list.index and list.remove *)
Definition list_index (x : nat) (l : list nat) : res nat := if mem x l then Ok (index_of x l) else Err ValueError.
(** undirected_contraction_tree.py:96-105 get_path: the body of the loop *)
Fixpoint path_steps (ops : list nat) (l : list (nat * nat * nat)) : res (list nat * lpath) :=
  match l with
  | [] => Ok (ops, [])
  | (c0, c1, v) :: r =>
      do i <- list_index c0 ops;
      do j <- list_index c1 ops;
      do q <- path_steps (remove Nat.eq_dec c1 (remove Nat.eq_dec c0 ops) ++ [v]) r;
      Ok (fst q, [i; j] :: snd q)
  end.
Definition get_path (t : uct) : res lpath :=
  do a <- internal_path (2 * u_n t) (u_n t) (u_adj t) (u_par t) (fst (u_root t));
  do p <- path_steps (seq 0 (u_n t)) a;
  do b <- internal_path (2 * u_n t) (u_n t) (u_adj t) (u_par t) (snd (u_root t));
  do q <- path_steps (fst p) b;
  Ok (snd p ++ snd q ++ [[0; 1]]).

(** undirected_contraction_tree.py:116-127 one round of the loop of switch_edges, for (u, c0) and v *)
Definition same_pair (p q : nat * nat) : bool :=
  ((fst p =? fst q) && (snd p =? snd q)) || ((fst p =? snd q) && (snd p =? fst q)).
Definition par_is (par : list (nat * nat)) (x y : nat) : bool := match get x par with Some p => p =? y | None => false end.
Definition switch_half (t : uct) (u c0 v : nat) : res uct :=
  do s0 <- edge_sub (u_sub t) u c0;
  do s1 <- edge_sub (u_sub t) c0 u;
  let sub := del (c0, u) (del (u, c0) (set (c0, v) s1 (set (v, c0) s0 (u_sub t)))) in
  let adj := del_edge u c0 (add_edge v c0 (u_adj t)) in
  let par := if par_is (u_par t) c0 u then set c0 v (u_par t) else u_par t in
  let par := if par_is par u c0 then set u v (set v c0 par) else par in
  let root := if same_pair (u_root t) (u, c0) then (v, c0) else u_root t in
  Ok (w_graph t adj par root sub).
(** undirected_contraction_tree.py:107-134 switch_edges *)
Definition switch_edges (t : uct) (u c0 v c1 : nat) : res uct :=
  do t <- switch_half t u c0 v;
  do t <- switch_half t v c1 u;
  let sub := del (v, u) (del (u, v) (u_sub t)) in
  do d <- preprocess (2 * u_n t) (u_n t) (u_leaf t) (u_adj t) sub v u;
  do d <- preprocess (2 * u_n t) (u_n t) (u_leaf t) (u_adj t) (fst d) u v;
  let t := w_graph t (u_adj t) (u_par t) (u_root t) (fst d) in
  do t <- compute_node_cost t v;
  do t <- compute_node_cost t u;
  if same_pair (u_root t) (u, v) then compute_root_cost t else Ok t.
(** undirected_contraction_tree.py:136-142 step_root *)
Definition step_root (t : uct) (u v : nat) : res uct :=
  if negb ((u =? fst (u_root t)) || (u =? snd (u_root t))) then Err ValueError
  else
    do t <- compute_node_cost (w_graph t (u_adj t) (set u v (u_par t)) (u, v) (u_sub t)) u;
    compute_root_cost t.

(** undirected_contraction_tree.py:167-193 operations on the stem, a list of nodes kept beside the tree *)
Definition slice (l : list nat) (i k : nat) : list nat := firstn k (skipn i l).
(** set(self.graph[u]) - {a, b}, a set of one element *)
Definition third (adj : list (nat * list nat)) (u a b : nat) : res nat :=
  match filter (fun c => negb ((c =? a) || (c =? b))) (nbs adj u) with [c] => Ok c | _ => Err ValueError end.
(** undirected_contraction_tree.py:167-172 switch_branches (1 <= i) *)
Definition switch_branches (t : uct) (stem : list nat) (i : nat) : res (uct * list nat) :=
  match slice stem (i - 1) 4 with
  | [t0; u; v; t1] =>
      do c0 <- third (u_adj t) u t0 v;
      do c1 <- third (u_adj t) v u t1;
      do t <- switch_edges t u c0 v c1;
      Ok (t, stem)
  | _ => Err ValueError
  end.
(** undirected_contraction_tree.py:174-180 merge_branches: also returns c0 *)
Definition merge_branches (t : uct) (stem : list nat) (i : nat) : res (uct * list nat * nat) :=
  match slice stem (i - 1) 4 with
  | [t0; u; v; t1] =>
      do c0 <- third (u_adj t) u t0 v;
      do t <- switch_edges t u c0 v t1;
      Ok (t, del_nth (i + 1) stem, c0)
  | _ => Err ValueError
  end.
(** undirected_contraction_tree.py:182-193 unmerge_branches; the branch c0 given or the smallest *)
Definition unmerge_branches (t : uct) (stem : list nat) (i : nat) (c0 : option nat) : res (uct * list nat) :=
  match slice stem (i - 1) 3 with
  | [t0; u; t1] =>
      do v <- third (u_adj t) u t0 t1;
      do c <- (match c0 with
               | Some c => Ok c
               | None => match others (u_adj t) v u with [] => Err ValueError | x :: r => Ok (fold_left Nat.min r x) end
               end);
      do t <- switch_edges t u t1 v c;
      Ok (t, firstn (i + 1) stem ++ v :: skipn (i + 1) stem)
  | _ => Err ValueError
  end.

(** a call on the tree and its stem *)
Inductive uop : Type :=
| UExchange (u c0 v c1 : nat)         (* switch_edges((u, c0), (v, c1)) *)
| UStep (u v : nat)                   (* step_root(u, v) *)
| UBranches (i : nat)                 (* switch_branches(i) *)
| UMerge (i : nat)                    (* merge_branches(i) *)
| UUnmerge (i : nat) (c : option nat). (* unmerge_branches(i, c0=c) *)
Definition do_uop (st : uct * list nat) (o : uop) : res (uct * list nat) :=
  let '(t, stem) := st in
  match o with
  | UExchange u c0 v c1 => do t <- switch_edges t u c0 v c1; Ok (t, stem)
  | UStep u v => do t <- step_root t u v; Ok (t, stem)
  | UBranches i => switch_branches t stem i
  | UMerge i => do r <- merge_branches t stem i; Ok (fst r)
  | UUnmerge i c => unmerge_branches t stem i c
  end.
