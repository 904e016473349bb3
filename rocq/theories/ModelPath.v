(** * Model of the path helpers of acqdp/utility (the bundled opt_einsum modules). *)
From Coq Require Import List Arith ZArith Lia Bool.
From Verif Require Import Base PathSpec ModelOrder.
Import ListNotations.
Set Implicit Arguments.
Open Scope nat_scope.

(** ** opt_einsum_paths.pyx:49-63 ssa_to_linear

    [ids] is the numpy array.  Simplification: its entries are integers, not int32. *)
Definition dec_from (i : nat) (ids : list Z) : list Z :=
  firstn i ids ++ map (fun x => (x - 1)%Z) (skipn i ids).
Fixpoint s2l (ids : list Z) (p : lpath) : res (list (list Z)) :=
  match p with
  | [] => Ok []
  | s :: r =>
      do q <- mapM (fun i => match nth_error ids i with Some z => Ok z | None => Err IndexError end) s;
      do w <- s2l (fold_left (fun a i => dec_from i a) s ids) r;
      Ok (q :: w)
  end.
(** max(map(max, ssa_path)): ValueError for an empty path or an empty step *)
Definition py_max (l : list nat) : res nat := match l with [] => Err ValueError | _ => Ok (list_max l) end.
Definition ssa_to_linear (p : lpath) : res (list (list Z)) :=
  do ms <- mapM py_max p;
  do m <- py_max ms;
  s2l (map Z.of_nat (seq 0 (1 + m))) p.
(** a linear path as Python integers *)
Definition zpath (p : lpath) : list (list Z) := map (map Z.of_nat) p.

(** ** opt_einsum_paths.pyx:66-84 linear_to_ssa

    Simplifications: positions are not negative; for a path with empty steps the number of inputs is
    cut off at 0. *)
Definition sort_desc (l : list nat) : list nat := rev (sort_key Z.of_nat l).
Fixpoint del_all {A} (ids : list nat) (l : list A) : res (list A) :=
  match ids with
  | [] => Ok l
  | i :: r => if i <? length l then del_all r (del_nth i l) else Err IndexError
  end.
Fixpoint l2s (cur : list nat) (next : nat) (p : lpath) : res lpath :=
  match p with
  | [] => Ok []
  | ids :: r =>
      do s <- mapM (fun i => match nth_error cur i with Some x => Ok x | None => Err IndexError end) ids;
      do c <- del_all (sort_desc ids) cur;
      do q <- l2s (c ++ [next]) (S next) r;
      Ok (s :: q)
  end.
Definition path_inputs (p : lpath) : nat := list_sum (map (@length nat) p) + 1 - length p.
Definition linear_to_ssa (p : lpath) : res lpath := l2s (seq 0 (path_inputs p)) (path_inputs p) p.

(** ** opt_einsum_helpers.pyx *)

(** sets of indices: lists without repetition, compared as sets *)
Definition union (a b : list nat) : list nat := dedup (a ++ b).
Definition inter (a b : list nat) : list nat := filter (fun x => mem x b) a.
Definition diff (a b : list nat) : list nat := filter (fun x => negb (mem x b)) a.

(** :47-72 compute_size_by_dict *)
Fixpoint size_by_dict (indices : list nat) (d : list (nat * Z)) : res Z :=
  match indices with
  | [] => Ok 1%Z
  | i :: r => match get i d with Some s => do q <- size_by_dict r d; Ok (s * q)%Z | None => Err KeyError end
  end.

(** remaining.pop(i) for the sorted positions: the sets popped and the list left *)
Fixpoint pop_all {A} (ids : list nat) (l : list A) : res (list A * list A) :=
  match ids with
  | [] => Ok ([], l)
  | i :: r => do p <- pop_nth i l; do q <- pop_all r (snd p); Ok (fst p :: fst q, snd q)
  end.
(** :75-122 find_contraction.  next(inputs) on no positions raises StopIteration, here ValueError. *)
Definition find_contraction (positions : list nat) (inputs : list (list nat)) (output : list nat)
  : res (list nat * list (list nat) * list nat * list nat) :=
  do p <- pop_all (sort_desc positions) inputs;
  match fst p with
  | [] => Err ValueError
  | s :: r =>
      let contract := dedup (concat (s :: r)) in
      let remain := dedup (concat (output :: snd p)) in
      let new := inter remain contract in
      Ok (new, snd p ++ [new], diff contract new, contract)
  end.

(** :125-163 flop_count; [num_terms] is an integer *)
Definition flop_count (idx : list nat) (inner : bool) (num_terms : Z) (d : list (nat * Z)) : res Z :=
  do s <- size_by_dict idx d;
  Ok (s * (Z.max 1 (num_terms - 1) + (if inner then 1 else 0)))%Z.
