(** * Model of contraction orders: counters, order resolution, order finders, flattening, trees.

    Orders in the code are Python lists [[operands, result], ...]; here a [gorder].  What external
    optimisers decide (opt_einsum.contract_path, kahypar.partition, the sizes of intermediate tensors
    used only as tie-breaks) is an argument of the model, quantified in the theorems. *)
From Coq Require Import List Arith ZArith String Lia Bool.
From Verif Require Import Base OrderSpec ModelTN ModelContract.
Import ListNotations.
Set Implicit Arguments.
Open Scope nat_scope.

(** the names ('#', k) and '#' *)
Definition hname (k : Z) : name := NT [NS "#"%string; NI k].
Definition hash : name := NS "#"%string.

(** ** Python list helpers *)

(** list.pop(i), i >= 0 *)
Definition pop_nth {A} (i : nat) (l : list A) : res (A * list A) :=
  match nth_error l i with Some x => Ok (x, del_nth i l) | None => Err IndexError end.

(** sorted(l, key=...) with an integer key: stable *)
Fixpoint ins_key {A} (key : A -> Z) (x : A) (l : list A) : list A :=
  match l with
  | [] => [x]
  | y :: r => if Z.ltb (key x) (key y) then x :: l else y :: ins_key key x r
  end.
Definition sort_key {A} (key : A -> Z) (l : list A) : list A :=
  fold_left (fun acc x => ins_key key x acc) l [].

(** ** contraction.py:95-112 OrderCounter *)

(** one operand name, contraction.py:105-108: a tuple of length 2 starting with '#' bumps the counter;
    max of an int and a non-int raises TypeError *)
Definition counter_see (k : Z) (x : name) : res Z :=
  match x with
  | NT [NS h; v] => if String.eqb h "#" then match v with NI z => Ok (Z.max k z) | _ => Err TypeError end
                    else Ok k
  | _ => Ok k
  end.
Fixpoint counter_names (k : Z) (l : list name) : res Z :=
  match l with [] => Ok k | x :: r => do k <- counter_see k x; counter_names k r end.
(** contraction.py:101-108 __init__ *)
Fixpoint counter_steps (k : Z) (o : gorder) : res Z :=
  match o with [] => Ok k | s :: r => do k <- counter_names k (fst s); counter_steps k r end.
Definition counter_new (o : gorder) : res Z := counter_steps 0 o.
(** contraction.py:96-99 cnt *)
Definition counter_cnt (k : Z) : name * Z := (hname (k + 1), (k + 1)%Z).
(** contraction.py:110-112 __copy__ *)
Definition counter_copy (k : Z) : res Z := counter_new [([hname k], hash)].
(** the names given by [n] successive reads of cnt *)
Fixpoint draws (k : Z) (n : nat) : list name :=
  match n with 0 => [] | S m => fst (counter_cnt k) :: draws (snd (counter_cnt k)) m end.

(** ** local_optimizer.py:129-150 path_to_paired_order *)

(** An opt_einsum path: each step lists positions.  Simplification: positions are not negative. *)
Definition opath : Type := list (list nat).

(** the loop; [rhs] is used by a one-operand last step *)
Fixpoint paired (lhs : list name) (rhs : name) (path : opath) (k : Z) : res (gorder * Z) :=
  match path with
  | [] => Ok ([], k)
  | [i] :: r =>
      do p <- pop_nth i lhs;
      match r with
      | [] => Ok ([([fst p], rhs)], k)
      | _ => paired (snd p ++ [fst p]) rhs r k
      end
  | (i :: j :: _) :: r =>
      match nth_error lhs i, nth_error lhs j with
      | Some x, Some y =>
          let c := counter_cnt k in
          do p <- pop_nth (Nat.max i j) lhs;
          do q <- pop_nth (Nat.min i j) (snd p);
          do res <- paired (snd q ++ [fst c]) rhs r (snd c);
          Ok (([x; y], fst c) :: fst res, snd res)
      | _, _ => Err IndexError
      end
  | [] :: _ => Err IndexError
  end.

(** new_order[-1][1] = rhs *)
Definition set_last (o : gorder) (z : name) : res gorder :=
  match rev o with
  | [] => Err IndexError
  | s :: r => Ok (rev r ++ [(fst s, z)])
  end.

Definition path_to_paired_order (s : ostep) (path : opath) (k : Z) : res (gorder * Z) :=
  do r <- paired (fst s) (snd s) path k;
  do o <- set_last (fst r) (snd s);
  Ok (o, snd r).

(** ** local_optimizer.py:31-46 order_to_contraction_scheme

    [sp] is the path subscript_to_path gives for each step (opt_einsum.contract_path on the
    subscripts of the step).  order_to_subscripts (:78-93) stops at the first step making '#', and
    zip drops the steps after it.  Simplification: the subscripts themselves, computed by encapsulating
    in a copy of the network, and the cost are not modelled. *)
Fixpoint upto_hash (o : gorder) : gorder :=
  match o with
  | [] => []
  | s :: r => if eqb (snd s) hash then [s] else s :: upto_hash r
  end.
Fixpoint resolve (sp : ostep -> opath) (o : gorder) (k : Z) : res gorder :=
  match o with
  | [] => Ok []
  | s :: r => do p <- path_to_paired_order s (sp s) k;
              do q <- resolve sp r (snd p);
              Ok (fst p ++ q)
  end.
Definition order_to_contraction_scheme (sp : ostep -> opath) (o : gorder) : res gorder :=
  do k <- counter_new o; resolve sp (upto_hash o) k.

(** ** order_finder.py:31-62 OrderFinder.find_order *)

(** :50-58, on the sorted list of nodes *)
Fixpoint chain (k : name) (i : Z) (l : list name) : gorder :=
  match l with
  | [] => []
  | x :: r => ([x; k], hname i) :: chain (hname i) (i + 1) r
  end.
Definition chain_order (nodes : list name) : res gorder :=
  match nodes with
  | [] => Ok []
  | x :: r => match chain x 0 r with [] => Ok [] | o => set_last o hash end
  end.
(** order_method = 'default': sorted(nodes), or sorted by str when some names do not compare *)
Definition default_finder (sp : ostep -> opath) (nodes : list name) : res gorder :=
  do o <- chain_order (py_sorted nodes); order_to_contraction_scheme sp o.
(** order_method = 'vertical' sorts by another key: [arrange] is any rearrangement of the nodes *)
Definition finder_with (arrange : list name -> list name) (sp : ostep -> opath) (nodes : list name) : res gorder :=
  do o <- chain_order (arrange nodes); order_to_contraction_scheme sp o.

(** ** order_finder.py:76-90 OptEinsumOrderFinder.find_order: [path] is what opt_einsum returns *)
Definition oe_finder (path : opath) (sp : ostep -> opath) (nodes : list name) : res gorder :=
  do o <- (if Nat.ltb 1 (List.length nodes)
           then do p <- path_to_paired_order (nodes, hash) path 0; Ok (fst p)
           else Ok []);
  order_to_contraction_scheme sp o.

(** ** kahypar_order_finder.py:162-207 _order_by_params

    [part nodes] is the answer of the partitioner for a call on the nodes [nodes]: None when the
    graph has no edges (:177), otherwise the block of each node.  Every call of one run has a different
    list of nodes, so a function covers every behaviour of the partitioner.  The sub-hypergraphs are
    not modelled. *)
Fixpoint put_block (b : nat) (x : name) (parts : list (list name)) : res (list (list name)) :=
  match parts, b with
  | [], _ => Err IndexError
  | p :: r, 0 => Ok ((p ++ [x]) :: r)
  | p :: r, S b => do r <- put_block b x r; Ok (p :: r)
  end.
Fixpoint blocks (ids : list nat) (nodes : list name) (parts : list (list name)) : res (list (list name)) :=
  match nodes, ids with
  | [], _ => Ok parts
  | x :: r, b :: bs => do p <- put_block b x parts; blocks bs r p
  | _ :: _, [] => Err IndexError
  end.
Section Khp.
  Variable part : list name -> option (list nat).
  Variable K cutoff : nat.
  Section Groups.
    (** :182-204, the recursive call being [rec] *)
    Variable rec : list name -> Z -> res (gorder * Z).
    Fixpoint groups (parts : list (list name)) (k : Z) : res (gorder * list name * Z) :=
      match parts with
      | [] => Ok ([], [], k)
      | p :: r =>
          match p with
          | [] => groups r k
          | [x] => do g <- groups r k; Ok (fst (fst g), x :: snd (fst g), snd g)
          | _ => let c := counter_cnt k in
                 do o <- (if Nat.ltb cutoff (List.length p)
                          then do w <- rec p (snd c); do o <- set_last (fst w) (fst c); Ok (o, snd w)
                          else Ok ([(p, fst c)], snd c));
                 do g <- groups r (snd o);
                 Ok (fst o ++ fst (fst g), fst c :: snd (fst g), snd g)
          end
      end.
  End Groups.
  Fixpoint khp (fuel : nat) (nodes : list name) (k : Z) : res (gorder * Z) :=
    match fuel with
    | 0 => Err OutOfFuel
    | S fuel =>
        match part nodes with
        | None => Ok ([(nodes, hash)], k)
        | Some ids =>
            do parts <- blocks ids nodes (repeat [] K);
            if existsb (fun p => Nat.eqb (List.length p) (List.length nodes)) parts
            then Ok ([(nodes, hash)], k)
            else
              do g <- groups (khp fuel) (sort_key (fun p => (- Z.of_nat (List.length p))%Z) parts) k;
              Ok (fst (fst g) ++ [(snd (fst g), hash)], snd g)
        end
    end.
End Khp.

(** kahypar_order_finder.py:82-109 _simplify: [picks] are the pairs of nodes the loop finds, one after
    another, each pair from the graph left by the previous one; merged nodes are removed and the new
    one is appended by encapsulate.  The search for the pairs is not modelled; a pair is any two
    different nodes of the graph. *)
Fixpoint simplify (picks : list (nat * nat)) (nodes : list name) (k : Z) : res (gorder * list name * Z) :=
  match picks with
  | [] => Ok ([], nodes, k)
  | (i, j) :: r =>
      match nth_error nodes i, nth_error nodes j with
      | Some x, Some y =>
          if eqb x y then Err ValueError else
          let c := counter_cnt k in
          do g <- simplify r (remove1 y (remove1 x nodes) ++ [fst c]) (snd c);
          Ok (([x; y], fst c) :: fst (fst g), snd (fst g), snd g)
      | _, _ => Err IndexError
      end
  end.
(** :111-160 find_order: init_order + the order of a query (:26-46); the choice among several queries
    only selects one of them *)
Definition khp_finder (picks : list (nat * nat)) part K cutoff (sp : ostep -> opath) (nodes : list name) : res gorder :=
  do s <- simplify picks nodes 0;
  do k <- counter_copy (snd s);
  do o <- khp part K cutoff (S (List.length (snd (fst s)))) (snd (fst s)) k;
  do q <- order_to_contraction_scheme sp (fst o);
  Ok (fst (fst s) ++ q).

(** ** local_optimizer.py:178-219 LocalOptimizer._flatten_order

    [size] is size_dic: the ranks of the tensors.  Simplification: order_to_subscripts on the copied
    network, which computes the ranks, is not modelled. *)
Section Flatten.
  Variable size : name -> Z.
  Variable max_size offset : nat.

  (** :189-191; later steps with the same name win *)
  Fixpoint rhs_list (i : nat) (o : gorder) (acc : list (name * (nat * list name))) :=
    match o with [] => acc | s :: r => rhs_list (S i) r (set (snd s) (i, fst s) acc) end.

  (** :200-213 the for loop; also returns cnt_offset *)
  Fixpoint pick (rhs : list (name * (nat * list name))) (len : nat) (l : list name) (cof : nat)
    : option (name * (nat * list name)) * nat :=
    match l with
    | [] => (None, cof)
    | x :: r =>
        match get x rhs with
        | None => pick rhs len r cof
        | Some (i, m) =>
            if (Z.ltb (size x) 7 || Nat.ltb max_size (List.length m + len))%bool then pick rhs len r cof
            else if Nat.ltb cof offset then pick rhs len r (S cof)
            else (Some (x, (i, m)), cof)
        end
    end.

  (** :188-215 the while loop, [c] = -cnt *)
  Fixpoint flat_loop (fuel : nat) (o : gorder) (c cof : nat) : res gorder :=
    match fuel with
    | 0 => Err OutOfFuel
    | S fuel =>
        if Nat.ltb c (List.length o) then
          let idx := List.length o - c in
          match nth_error o idx with
          | None => Err IndexError
          | Some (lhs, z) =>
              let rhs := rhs_list 0 (firstn idx o) [] in
              if Nat.leb max_size (List.length lhs) then flat_loop fuel o (S c) cof
              else
                let largest := rev (sort_key size (dedup lhs)) in
                match pick rhs (List.length lhs) largest cof with
                | (Some (l, (i, m)), cof) =>
                    flat_loop fuel (del_nth i (set_nth idx (remove1 l lhs ++ m, z) o)) c cof
                | (None, cof) => flat_loop fuel o (S c) cof
                end
          end
        else Ok o
    end.
  Definition flatten_order (o : gorder) : res gorder := flat_loop (S (List.length o)) o 1 0.
End Flatten.

(** local_optimizer.py:221-228 LocalOptimizer.optimize: flatten and resolve, any number of times *)
Fixpoint optimize (rounds : list ((name -> Z) * nat * (ostep -> opath))) (max_size : nat) (o : gorder) : res gorder :=
  match rounds with
  | [] => Ok o
  | (size, offset, sp) :: r =>
      do f <- flatten_order size max_size offset o;
      do q <- order_to_contraction_scheme sp f;
      optimize r max_size q
  end.

(** ** local_optimizer.py:48-72 order_to_path: the pairs of positions of a pairwise order *)
Fixpoint order_to_path (nodes : list name) (o : gorder) : res (list (nat * nat)) :=
  match o with
  | [] => Ok []
  | (x :: y :: _, z) :: r =>
      if mem x nodes && mem y nodes then
        let i := index_of x nodes in let j := index_of y nodes in
        do p <- pop_nth (Nat.max i j) nodes;
        do q <- pop_nth (Nat.min i j) (snd p);
        do res <- order_to_path (snd q ++ [z]) r;
        Ok ((i, j) :: res)
      else Err ValueError
  | _ :: _ => Err IndexError
  end.

(** ** contraction_tree.py:16-97 ContractionTree *)

(** name, subscripts (a list of symbols), children (None for a leaf) *)
Inductive ctree : Type :=
| CLeaf (nm : name) (subs : list nat)
| CNode (nm : name) (subs : list nat) (children : list ctree).
Definition ct_name (t : ctree) := match t with CLeaf n _ => n | CNode n _ _ => n end.
Definition ct_subs (t : ctree) := match t with CLeaf _ s => s | CNode _ s _ => s end.

(** contraction_tree.py:39-50 __init__ with children: sorted by the number of subscripts *)
Definition ct_make (nm : name) (subs : list nat) (children : list ctree) : ctree :=
  CNode nm subs (sort_key (fun c => Z.of_nat (List.length (ct_subs c))) children).

(** contraction_tree.py:23-37 from_order; [sub] gives the subscripts of every tensor (computed in the
    code by encapsulating a copy of the network step by step). *)
Fixpoint tree_steps (sub : name -> list nat) (o : gorder) (dic : list (name * ctree)) : res (list (name * ctree)) :=
  match o with
  | [] => Ok dic
  | (l, z) :: r =>
      do cs <- mapM (fun x => match get x dic with Some t => Ok t | None => Err KeyError end) l;
      tree_steps sub r (set z (ct_make z (sub z) cs) dic)
  end.
Definition from_order (sub : name -> list nat) (nodes : list name) (o : gorder) : res ctree :=
  do dic <- tree_steps sub o (map (fun x => (x, CLeaf x (sub x))) nodes);
  match get hash dic with Some t => Ok t | None => Err KeyError end.

(** contraction_tree.py:68-83 order, full_order *)
Fixpoint full_order (t : ctree) : res gorder :=
  match t with
  | CLeaf _ _ => Ok []
  | CNode nm _ cs =>
      if Nat.leb (List.length cs) 2 then
        do os <- (fix go cs := match cs with
                               | [] => Ok []
                               | c :: r => do o <- full_order c; do os <- go r; Ok (os ++ o)
                               end) cs;
        Ok (os ++ [(map ct_name cs, nm)])
      else Err AssertionError
  end.

(** contraction_tree.py:99-121 flip_branch.  [dec] decides whether a stem node is flipped and gives
    the subscripts of the new stem (the code compares subscript sets; the iteration order of a set is
    not specified).  The result is the tree after the call. *)
Section Flip.
  Variable dec : ctree -> option (list nat).
  Definition flip_here (t : ctree) : ctree :=
    match t with
    | CNode nm s (branch1 :: CNode n1 s1 (branch0 :: stem0 :: r) :: q) =>
        match dec t with
        | Some ns => CNode nm s [branch0; ct_make n1 ns [branch1; stem0]]
        | None => t
        end
    | _ => t
    end.
  (** the children are flipped after the node itself *)
  Fixpoint flip_branch (fuel : nat) (t : ctree) : res ctree :=
    match fuel with
    | 0 => Err OutOfFuel
    | S fuel =>
        match flip_here t with
        | CLeaf n s => Ok (CLeaf n s)
        | CNode n s cs => do cs <- mapM (flip_branch fuel) cs; Ok (CNode n s cs)
        end
    end.
End Flip.
