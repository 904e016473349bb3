(** * Model of the dynamic programming path optimiser of acqdp/utility/opt_einsum_paths.pyx *)
From Coq Require Import List Arith ZArith NArith Lia Bool.
From Verif Require Import Base PathSpec ModelOrder ModelPath ModelOpt.
Import ListNotations.
Set Implicit Arguments.
Open Scope nat_scope.

(** ** opt_einsum_paths.pyx:655-715 _tree_to_sequence

    A contraction tree is a [ptree]: an int or a tuple. *)
Definition tree_ints (l : list ptree) : list nat :=
  flat_map (fun t => match t with PLeaf i => [i] | PNode _ => [] end) l.
Definition tree_nodes (l : list ptree) : list (list ptree) :=
  flat_map (fun t => match t with PLeaf _ => [] | PNode m => [m] end) l.
(** :704-706 the positions of the ints and the list t after inserting them *)
Fixpoint place (is : list nat) (t : list nat) : list nat * list nat :=
  match is with
  | [] => ([], t)
  | i :: r =>
      let p := length (filter (fun q => q <? i) t) in
      let q := place r (firstn p t ++ i :: skipn p t) in
      (p :: fst q, snd q)
  end.
(** :700-712; the list [c] is kept with its last element first *)
Fixpoint t2s (fuel : nat) (c : list (list ptree)) (t : list nat) (s : lpath) : res lpath :=
  match c with
  | [] => Ok s
  | j :: c =>
      match fuel with
      | 0 => Err OutOfFuel
      | S fuel =>
          let q := place (sort_key Z.of_nat (tree_ints j)) t in
          let os := tree_nodes j in
          t2s fuel (rev os ++ c) (snd q)
            ((fst q ++ map (fun k => length (snd q) + length c + k) (seq 0 (length os))) :: s)
      end
  end.
(** number of tuples in a tree *)
Fixpoint tuples (t : ptree) : nat :=
  match t with PLeaf _ => 0 | PNode l => S (list_sum (map tuples l)) end.
Definition tree_to_sequence (t : ptree) : res lpath :=
  match t with PLeaf _ => Ok [] | PNode l => t2s (tuples t) [l] [] [] end.

(** ** :718-760 _find_disconnected_subgraphs

    Simplification: set.pop takes the smallest element. *)
Fixpoint component (fuel : nat) (i_sum : nset) (inputs : list nset) (g q unused : list nat) : res (list nat * list nat) :=
  match q with
  | [] => Ok (g, unused)
  | j :: q =>
      match fuel with
      | 0 => Err OutOfFuel
      | S fuel =>
          do k <- at_ inputs j;
          let near := fun x => nonempty (sinter (sinter i_sum k) (nth x inputs [])) in
          let n := filter near unused in
          component fuel i_sum inputs (g ++ [j]) (rev n ++ q) (filter (fun x => negb (near x)) unused)
      end
  end.
Fixpoint subgraphs (fuel : nat) (i_sum : nset) (inputs : list nset) (unused : list nat) : res (list (list nat)) :=
  match unused with
  | [] => Ok []
  | j :: r =>
      match fuel with
      | 0 => Err OutOfFuel
      | S fuel =>
          do c <- component (length inputs) i_sum inputs [] [j] r;
          do gs <- subgraphs fuel i_sum inputs (snd c);
          Ok (fst c :: gs)
      end
  end.
Definition disconnected (inputs : list nset) (output : nset) : res (list (list nat)) :=
  subgraphs (length inputs) (sdiff (mkset (concat inputs)) output) inputs (seq 0 (length inputs)).

(** ** :790-948 DynamicProgrammingOptimizer.__call__

    A bitmap set is the ascending list of its elements; [bits] is the bitmap, used to compare.
    An entry of x[n] maps a set of tensors to (indices, cost, contraction). *)
Definition entry : Type := (nset * Z * ptree)%type.
Definition table : Type := list (list (nset * entry)).
Definition bits (s : nset) : N := fold_right (fun j acc => N.lor (N.shiftl 1 (N.of_nat j)) acc) 0%N s.

Section DP.
  Variable sizes : list (nat * Z).
  Variable limit : option Z.
  Variable output : nset.
  Variable inputs : list nset.
  Variable g : list nat.
  Variable cap : Z.

  (** :889-925 the body of the loops, for two entries of x[m] and x[n-m] *)
  Definition dp_pair (same : bool) (xn : list (nset * entry)) (a b : nset * entry) : res (list (nset * entry)) :=
    let '(s1, (i1, cost1, t1)) := a in
    let '(s2, (i2, cost2, t2)) := b in
    if nonempty (sinter s1 s2) then Ok xn
    else if same && negb (N.ltb (bits s1) (bits s2)) then Ok xn
    else
      let cut := sdiff (sinter i1 i2) output in
      if negb (nonempty cut) then Ok xn
      else
        do z <- size_by_dict (sunion i1 i2) sizes;
        let cost := (cost1 + cost2 + z)%Z in
        if Z.leb cost cap then
          let s := sunion s1 s2 in
          if match get s xn with None => true | Some (_, c, _) => Z.ltb cost c end then
            do rs <- mapM (at_ inputs) (filter (fun j => negb (mem j s)) g);
            let i := sdiff (sunion i1 i2) (sdiff cut (mkset (concat rs))) in
            do m <- size_by_dict i sizes;
            if match limit with None => true | Some l => Z.leb m l end
            then Ok (set s (i, cost, PNode [t1; t2]) xn) else Ok xn
          else Ok xn
        else Ok xn.
  (** :880-925 the loops for one [n] *)
  Definition dp_level (x : table) (n : nat) : res table :=
    do xn <- foldM (fun xn m =>
               foldM (fun xn a =>
                 foldM (fun xn b => dp_pair (m =? n - m) xn a b) xn (nth (n - m) x []))
                 xn (nth m x []))
               (nth n x []) (seq 1 (n / 2));
    Ok (set_nth n xn x).
  Definition dp_round (x : table) : res table :=
    foldM dp_level x (seq 2 (length (nth 1 x []) - 1)).
End DP.

(** :876-928 while len(x[-1]) == 0 *)
Fixpoint dp_while (fuel : nat) sizes limit output inputs g (mn : res Z) (cap : Z) (x : table) : res table :=
  match last x [] with
  | [] => match fuel with
          | 0 => Err OutOfFuel
          | S fuel => do x <- dp_round sizes limit output inputs g cap x;
                      do m <- mn;
                      dp_while fuel sizes limit output inputs g mn (m * cap)%Z x
          end
  | _ => Ok x
  end.
(** :849-937 the best contraction of one subgraph and its size *)
Definition dp_graph (fuel : nat) sizes limit output (inputs : list nset) (exprs : list ptree) (mn : res Z) (g : list nat) : res (Z * ptree) :=
  do x1 <- mapM (fun j => do i <- at_ inputs j; do e <- at_ exprs j; Ok ([j], (i, 0%Z, e))) g;
  do gi <- mapM (at_ inputs) g;
  do cap <- size_by_dict (sinter (mkset (concat gi)) output) sizes;
  do x <- dp_while fuel sizes limit output inputs g mn cap ([] :: x1 :: repeat [] (length g - 1));
  match last x [] with
  | [] => Err IndexError
  | (_, (i, _, t)) :: _ => do z <- size_by_dict i sizes; Ok (z, t)
  end.

(** [argsort] is np.argsort: positions in some ascending order.  Simplification: indices are already
    integers. *)
Definition min_size (sizes : list (nat * Z)) (all : nset) : res Z :=
  match flat_map (fun c => match get c sizes with Some z => [z] | None => [] end) all with
  | [] => Err ValueError
  | z :: r => Ok (fold_left Z.min r z)
  end.
Definition dp (fuel : nat) (argsort : list Z -> list nat) (sizes : list (nat * Z)) (limit : option Z)
  (inputs : list nset) (output : nset) : res lpath :=
  match inputs with
  | [] => Err TypeError
  | _ =>
      let all := sunion (mkset (concat inputs)) output in
      do _ <- size_by_dict all sizes;
      let i_single := filter (fun c => length (filter (fun i => mem c i) inputs) =? 1) (sdiff (mkset (concat inputs)) output) in
      let done := flat_map (fun p => if nonempty (sdiff (snd p) i_single) then [] else [PNode [PLeaf (fst p)]]) (enum inputs) in
      let rest := flat_map (fun p => if nonempty (sdiff (snd p) i_single)
                                     then [(sdiff (snd p) i_single,
                                            if nonempty (sinter (snd p) i_single) then PNode [PLeaf (fst p)] else PLeaf (fst p))]
                                     else []) (enum inputs) in
      match rest with
      | [] => Err ValueError
      | _ =>
          do gs <- disconnected (map fst rest) output;
          do cs <- mapM (dp_graph fuel sizes limit output (map fst rest) (map snd rest) (min_size sizes all)) gs;
          let trees := done ++ map snd cs in
          do ts <- mapM (at_ trees) (argsort (repeat 1%Z (length done) ++ map fst cs));
          match ts with
          | [] => Err TypeError
          | t :: r => tree_to_sequence (fold_left (fun x y => PNode [x; y]) r t)
          end
      end
  end.

(** ** opt_einsum_paths.pyx:612-657 greedy with a memory limit, :976-993 auto

    A memory limit in _UNLIMITED_MEM is None.  The branching searches keep the default cost function and
    minimise flops; [slow], [ord] and [arrange] as in ModelOpt.v. *)
Definition greedy_within ord slow arrange sizes (limit : option Z) choose_push choose_pop push_all (output : nset) (inputs : list nset) : res (list (list Z)) :=
  match limit with
  | Some _ => branch ord sizes limit output (Some 1) false slow arrange inputs
  | None => greedy sizes choose_push choose_pop push_all inputs output
  end.
Definition auto_path ord slow arrange sizes (limit : option Z) choose_push choose_pop push_all (output : nset) (inputs : list nset) : res (list (list Z)) :=
  let n := length inputs in
  if (1 <=? n) && (n <=? 4) then optimal ord sizes limit output inputs
  else if (5 <=? n) && (n <=? 6) then branch ord sizes limit output None false slow arrange inputs
  else if (7 <=? n) && (n <=? 8) then branch ord sizes limit output (Some 2) false slow arrange inputs
  else if (9 <=? n) && (n <=? 14) then branch ord sizes limit output (Some 1) false slow arrange inputs
  else greedy_within ord slow arrange sizes limit choose_push choose_pop push_all output inputs.
