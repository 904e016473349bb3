(** * Model of acqdp/tensor_network/slicer.py (Slicer._slice, _biggest_weight_edge) and of
    undirected_contraction_tree.py detect_stem

    Oracles: what opt_einsum decides (paths and prices), the random offsets and the ranks used by the local
    optimiser, the two comparisons of floating point numbers, and the order in which Python lists a set.
    Printing is not modelled, nor are interrupts from the keyboard (slicer.py:80-81). *)
From Coq Require Import List Arith ZArith Lia Bool.
From Verif Require Import Base OrderSpec PathSpec ModelTN ModelContract ModelOrder ModelOpt ModelScheme ModelUct.
Import ListNotations.
Set Implicit Arguments.
Open Scope nat_scope.

(** ** undirected_contraction_tree.py:144-160 detect_stem_in_subtree *)
(** max of two pairs (cost, end), compared as tuples; the first of equal ones *)
Definition max_pair (a b : Z * nat) : Z * nat :=
  if ((fst a <? fst b)%Z || ((fst a =? fst b)%Z && (snd a <? snd b)))%bool then b else a.
(** max(a, b, key=lambda x: x[0]) *)
Definition max_first (a b : Z * nat * nat) : Z * nat * nat := if (fst (fst a) <? fst (fst b))%Z then b else a.
Fixpoint stem_in (fuel n : nat) adj (ncost : list (nat * Z)) (u v : nat) : res ((Z * nat * nat) * (Z * nat)) :=
  if is_leaf n v then Ok ((0%Z, v, v), (0%Z, v))
  else
    match fuel with
    | 0 => Err OutOfFuel
    | S fuel =>
        match others adj v u, get v ncost with
        | [c0; c1], Some cv =>
            do a <- stem_in fuel n adj ncost v c0;
            do b <- stem_in fuel n adj ncost v c1;
            let m := max_pair (snd a) (snd b) in
            let t := ((fst (snd a) + fst (snd b) + cv)%Z, snd (snd a), snd (snd b)) in
            Ok (max_first (max_first (fst a) (fst b)) t, ((fst m + cv)%Z, snd m))
        | [_; _], None => Err KeyError
        | _, _ => Err ValueError
        end
    end.
(** networkx.shortest_path in a tree, where there is one path without repeated nodes: the search that
    goes on from [x], coming from [prev] *)
Fixpoint tree_path (fuel : nat) (adj : list (nat * list nat)) (prev x y : nat) : option (list nat) :=
  if x =? y then Some [x]
  else
    match fuel with
    | 0 => None
    | S fuel =>
        (fix go l := match l with
                     | [] => None
                     | c :: r => match tree_path fuel adj x c y with Some p => Some (x :: p) | None => go r end
                     end) (others adj x prev)
    end.
(** undirected_contraction_tree.py:162-168 detect_stem.  The starting node has no predecessor; it is given
    itself, as no node is its own neighbour. *)
Definition detect_stem (t : uct) : res (list nat) :=
  match get 0 (u_par t) with
  | None => Err KeyError
  | Some p =>
      do r <- stem_in (2 * u_n t) (u_n t) (u_adj t) (u_ncost t) 0 p;
      match tree_path (2 * u_n t) (u_adj t) (snd (fst (fst r))) (snd (fst (fst r))) (snd (fst r)) with
      | Some s => Ok s
      | None => Err ValueError
      end
  end.

(** ** slicer.py:99-106: the subscripts that leave the stem, with the positions where they enter and leave *)
Record scan_state := Scan { sn_se : nset; sn_in : list (nat * nat); sn_out : list (nat * nat * nat) }.
Section Tree.
  (** the order in which Python lists a set of symbols *)
  Variable sord : list nat -> list nat.
  (** slicer.py:191: curr_cost < (1 + self.slice_thres) / 2 * c *)
  Variable accept : Z -> Z -> bool.

  Definition scan_one (t : uct) (stem : list nat) (st : scan_state) (i : nat) : res scan_state :=
    match nth_error stem i with
    | None => Err IndexError
    | Some v =>
        match get v (u_par t) with
        | None => Err KeyError
        | Some p =>
            do new <- open_at (u_n t) (u_open t) (u_sub t) p v;
            let ins := fold_left (fun d a => set a i d) (sord (sdiff new (sn_se st))) (sn_in st) in
            do outs <- mapM (fun a => match get a ins with Some j => Ok (a, j, i) | None => Err KeyError end)
                            (sord (sdiff (sn_se st) new));
            Ok (Scan new ins (sn_out st ++ outs))
        end
    end.
  (** slicer.py:96-107; x[1] - x[2] is the key *)
  Definition stem_edges (t : uct) (stem : list nat) : res (list (nat * nat * nat)) :=
    do st <- foldM (scan_one t stem) (Scan [] [] []) (seq 0 (length stem - 1));
    Ok (firstn 10 (sort_key (fun x => (Z.of_nat (snd (fst x)) - Z.of_nat (snd x))%Z) (sn_out st))).

  (** slicer.py:116-120: the edges of the graph are cleared and filled again one after the other.  In a
      networkx graph the two directions of an edge share one dictionary. *)
  Definition refill (t : uct) (e : nat * nat) : res uct :=
    let sub := del (snd e, fst e) (del e (u_sub t)) in
    do d <- preprocess (2 * u_n t) (u_n t) (u_leaf t) (u_adj t) sub (fst e) (snd e);
    do d <- preprocess (2 * u_n t) (u_n t) (u_leaf t) (u_adj t) (fst d) (snd e) (fst e);
    Ok (w_graph t (u_adj t) (u_par t) (u_root t) (fst d)).
  Definition w_leaf (t : uct) leaf : uct :=
    Uct (u_n t) (u_open t) leaf (u_adj t) (u_par t) (u_root t) (u_sub t) (u_ncost t) (u_rcost t) (u_cost t).
  (** slicer.py:112-123: the tree without the subscript [a] *)
  Definition without (t : uct) (a : nat) : res uct :=
    let t := w_leaf t (map (fun s => sdiff s [a]) (u_leaf t)) in
    do t <- foldM refill t (edge_list (u_adj t));
    do t <- compute_root_cost t;
    foldM compute_node_cost t (seq (u_n t) (u_n t - 2)).

  Section Stem.
    Variable stem : list nat.
    (** uct_copy.switch_branches for every position in turn *)
    Definition switch_at (t : uct) (i : nat) : res uct := do r <- switch_branches t stem i; Ok (fst r).
    Definition switches (t : uct) (l : list nat) : res uct := foldM switch_at t l.
    (** [range a b] is range(a, b) *)
    Definition range (a b : nat) : list nat := seq a (b - a).

    (** slicer.py:131-142 and 163-175: the first block of positions whose switches do not raise the cost, the
        others being undone; None when there is none *)
    Fixpoint try_blocks (t : uct) (cur : Z) (bs : list (list nat)) : res (uct * Z * bool) :=
      match bs with
      | [] => Ok (t, cur, false)
      | b :: r =>
          do t1 <- switches t b;
          if (u_cost t1 <=? cur)%Z then Ok (t1, u_cost t1, true)
          else do t2 <- switches t1 (rev b); try_blocks t2 cur r
      end.
    (** slicer.py:129-142 the loop over ii *)
    Fixpoint pull_down (fuel : nat) (t : uct) (cur : Z) (ii : nat) : res (uct * Z * nat) :=
      if 3 <? ii then
        match fuel with
        | 0 => Err OutOfFuel
        | S fuel =>
            do r <- try_blocks t cur (map (fun k => range k ii) (rev (range 3 ii)));
            let '(t, cur, ok) := r in
            if ok then pull_down fuel t cur (ii - 1) else Ok (t, cur, ii)
        end
      else Ok (t, cur, ii).
    (** slicer.py:144-151 and 176-184: switch along the positions [l], remembering the last one that did not raise
        the cost *)
    Fixpoint sweep (t : uct) (cur : Z) (sss : nat) (l : list nat) : res (uct * Z * nat) :=
      match l with
      | [] => Ok (t, cur, sss)
      | k :: r => do t <- switch_at t k;
                  if (u_cost t <=? cur)%Z then sweep t (u_cost t) k r else sweep t cur sss r
      end.
    (** slicer.py:125-157 the while loop over i *)
    Fixpoint shift_in (fuel : nat) (t : uct) (cur : Z) (i : nat) : res (uct * Z) :=
      if 5 <? i then
        match fuel with
        | 0 => Err OutOfFuel
        | S fuel =>
            do r <- pull_down i t cur i;
            let '(t, cur, ii) := r in
            do r <- sweep t cur (ii + 1) (rev (range 6 (ii + 1)));
            let '(t, cur, ii) := r in
            do t <- switches t (range 6 ii);
            if i <=? ii then Ok (t, cur) else shift_in fuel t cur ii
        end
      else Ok (t, cur).
    (** slicer.py:161-175 the loop over jj; [len] is len(uct_copy.stem) *)
    Notation len := (length stem).
    Fixpoint pull_up (fuel : nat) (t : uct) (cur : Z) (jj : nat) : res (uct * Z * nat) :=
      if jj + 3 <? len then
        match fuel with
        | 0 => Err OutOfFuel
        | S fuel =>
            do r <- try_blocks t cur (map (fun k => rev (range jj k)) (range (jj + 1) (len - 1)));
            let '(t, cur, ok) := r in
            if ok then pull_up fuel t cur (jj + 1) else Ok (t, cur, jj)
        end
      else Ok (t, cur, jj).
    (** slicer.py:159-190 the while loop over j *)
    Fixpoint shift_out (fuel : nat) (t : uct) (cur : Z) (j : nat) : res (uct * Z) :=
      if j + 5 <? len then
        match fuel with
        | 0 => Err OutOfFuel
        | S fuel =>
            do r <- pull_up len t cur j;
            let '(t, cur, jj) := r in
            do r <- sweep t cur (jj - 1) (range jj (len - 5));
            let '(t, cur, jj) := r in
            do t <- switches t (rev (range (jj + 1) (len - 5)));
            if jj <=? j then Ok (t, cur) else shift_out fuel t cur jj
        end
      else Ok (t, cur).

    (** slicer.py:108-196 the for loop over ss: [got] are the subscripts sliced, [alts] is ss_dic *)
    Fixpoint pick_edges (ss : list (nat * nat * nat)) (t : uct) (c : Z) (got : list nat) (alts : list (nat * (Z * lpath)))
      : res (uct * list nat * list (nat * (Z * lpath))) :=
      match ss with
      | [] => Ok (t, got, alts)
      | (a, i, j) :: r =>
          do t1 <- without t a;
          do _ <- get_path t1;
          do q <- shift_in len t1 (u_cost t1) i;
          do q <- shift_out len (fst q) (snd q) j;
          if accept (snd q) c then pick_edges r (fst q) (snd q) (got ++ [a]) alts
          else do p <- get_path (fst q); pick_edges r t c got (set a (snd q, p) alts)
      end.
  End Stem.

  (** slicer.py:95-202: the subscripts to slice and the new path *)
  Definition slice_tree (lhs : list (list nat)) (rhs : list nat) (path : lpath) : res (list nat * lpath) :=
    do t <- uct_init lhs rhs path;
    do stem <- detect_stem t;
    do ss <- stem_edges t stem;
    do r <- pick_edges stem ss t (u_cost t) [] [];
    let '(t, got, alts) := r in
    match got with
    | [] => match sort_key (fun x => fst (snd x)) alts with
            | [] => Err IndexError
            | (a, (_, p)) :: _ => Ok ([a], p)
            end
    | _ => do p <- get_path t; Ok (got, p)
    end.
End Tree.

(** slicer.py:203-208: the order along the new path; the results keep their names *)
Fixpoint rename_path (names : list name) (zs : list name) (p : lpath) : res gorder :=
  match p with
  | [] => Ok []
  | s :: r =>
      match s with
      | i :: j :: _ =>
          match nth_error names i, nth_error names j, zs with
          | Some x, Some y, z :: zr =>
              do a <- pop_nth (Nat.max i j) names;
              do b <- pop_nth (Nat.min i j) (snd a);
              do q <- rename_path (snd b ++ [z]) zr r;
              Ok (([x; y], z) :: q)
          | _, _, _ => Err IndexError
          end
      | _ => Err IndexError
      end
  end.

Section Slice.
  Context {T : Type} `{Payload T}.
  Notation net := (tn T).
  Variable sord : list nat -> list nat.
  Variable accept : Z -> Z -> bool.
  (** slicer.py:55-57: early termination, from cost.t and the number of slices *)
  Variable early : Z -> nat -> bool.
  (** the rounds of local optimisation in the [c]-th call of the optimiser or the resolver: what flattening and
      resolving decide (see ModelOrder.optimize), num_iter_before, num_iter_middle or num_iter_after of them *)
  Variable rounds : nat -> list ((name -> Z) * nat * (ostep -> opath)).
  (** the paths and the price of an order in the [c]-th call *)
  Variable paths : nat -> ostep -> opath.
  Variable price : nat -> net -> gorder -> ccost.
  (** local_optimizer.py:177 size *)
  Variable max_size : nat.
  (** slicer.py:23-24 *)
  Variable max_tw : nat.
  Variable max_num_slice : Z.

  (** local_optimizer.py:48-72 order_to_path: subscripts are positions in edges_by_name *)
  Definition edge_syms (n : net) (l : list name) : list nat := map (fun e => index_of e (keys (edges n))) l.
  (** slicer.py:83-209 _biggest_weight_edge *)
  Definition biggest_weight_edge (n : net) (o : gorder) : res (list name * gorder) :=
    let n := fix_all (copy_tn n) in
    do p <- order_to_path (keys (nodes n)) o;
    do r <- slice_tree sord accept (map (fun q => edge_syms n (n_legs (snd q))) (nodes n)) (edge_syms n (opens n))
                       (map (fun q => [fst q; snd q]) p);
    do es <- mapM (fun a => match nth_error (keys (edges n)) a with Some e => Ok e | None => Err KeyError end) (fst r);
    do q <- rename_path (keys (nodes n)) (map snd o) (snd r);
    Ok (es, q).

  (** local_optimizer.py:178-228 optimize.  _flatten_order changes the list [order.order] of its argument, so the
      argument is returned too, as it is afterwards. *)
  Definition optimize_scheme (c : nat) (n : net) (y : cscheme) : res (cscheme * cscheme) :=
    match rounds c with
    | [] => Ok (y, y)
    | (size, offset, sp) :: _ =>
        do f <- flatten_order size max_size offset (sc_order y);
        do o <- optimize (rounds c) max_size (sc_order y);
        Ok (CScheme o [] (price c n o), CScheme f (sc_slices y) (sc_cost y))
    end.
  Definition with_k (y : cscheme) (k : nat) : cscheme :=
    CScheme (sc_order y) (sc_slices y) (CCost (k_s (sc_cost y)) (k_t (sc_cost y)) k).
  Definition limit : Z := (2 ^ Z.of_nat max_tw)%Z.

  (** slicer.py:52-66 the while loop; [c] counts the calls *)
  Fixpoint slice_loop (fuel c : nat) (n : net) (y : cscheme) (es : list name) : res (net * cscheme * list name * nat) :=
    if (limit <? k_t (sc_cost y))%Z then
      if (max_num_slice <=? Z.of_nat (length es))%Z then Ok (n, y, es, c)
      else if early (k_t (sc_cost y)) (length es) then Ok (n, y, es, c)
      else
        match fuel with
        | 0 => Err OutOfFuel
        | S fuel =>
            do y <- optimize_scheme c n y;
            do k <- biggest_weight_edge n (sc_order (fst y));
            let es := es ++ fst k in
            do m <- run_net (foreach (fun a => fix_edge a [0] false) (fst k)) n;
            let n := fix_all (fst m) in
            do o <- order_to_contraction_scheme (paths (c + 1)) (snd k);
            slice_loop fuel (c + 2) n (CScheme o [] (CCost (k_s (price (c + 1) n o)) (k_t (price (c + 1) n o)) (length es))) es
        end
    else Ok (n, y, es, c).
  (** min(orders, key=lambda a: (a.cost, orders.index(a))) *)
  Definition min_scheme (l : list cscheme) : res cscheme :=
    match l with
    | [] => Err ValueError
    | y :: r => Ok (fold_left (fun y z => if cost_lt (sc_cost z) (sc_cost y) then z else y) r y)
    end.
  (** slicer.py:40-79 _slice; None is what the code returns when it fails to reach the limit *)
  Definition slice_ (n : net) (orders : list cscheme) : res (option cscheme) :=
    do y <- min_scheme orders;
    do y <- optimize_scheme 0 (copy_tn n) y;
    do r <- slice_loop (S (Z.to_nat max_num_slice)) 1 (copy_tn n) (fst y) [];
    let '(n, y, es, c) := r in
    do z <- optimize_scheme c n y;
    let new := with_k (fst z) (length es) in
    let y := if (k_t (sc_cost new) <=? limit)%Z then new else snd z in
    if (k_t (sc_cost y) <=? limit)%Z then Ok (Some (CScheme (sc_order y) es (sc_cost y))) else Ok None.
End Slice.
