(** * What a contraction path is, independently of the code.

    A path over [n] operands is a list of steps.  In the linear form a step lists positions in the
    current list of operands; those operands are removed and the new one goes to the end.  In the
    static single assignment (SSA) form a step lists identifiers: the inputs are 0..n-1 and the steps
    make n, n+1, ....  Both forms denote a contraction tree. *)
From Coq Require Import List Arith Lia Permutation Bool.
From Verif Require Import Base.
Import ListNotations.
Set Implicit Arguments.

Definition lpath : Type := list (list nat).

(** a contraction tree: an input, or the contraction of some trees *)
Inductive ptree : Type :=
| PLeaf (i : nat)
| PNode (l : list ptree).

(** the elements of a list at the positions not in [ids] *)
Fixpoint keep_from {A} (k : nat) (ids : list nat) (l : list A) : list A :=
  match l with
  | [] => []
  | x :: r => if mem k ids then keep_from (S k) ids r else x :: keep_from (S k) ids r
  end.
Definition keep_except {A} (ids : list nat) (l : list A) : list A := keep_from 0 ids l.

(** the elements at the positions [ids], in that order; None when some position does not exist *)
Fixpoint picks {A} (ids : list nat) (l : list A) : option (list A) :=
  match ids with
  | [] => Some []
  | i :: r => match nth_error l i, picks r l with
              | Some x, Some q => Some (x :: q)
              | _, _ => None
              end
  end.

(** valid linear path over [n] operands: every step takes at least one operand, different existing ones,
    and one operand is left *)
Fixpoint valid_lin (n : nat) (p : lpath) : Prop :=
  match p with
  | [] => n = 1
  | ids :: r => ids <> [] /\ NoDup ids /\ Forall (fun i => i < n) ids /\ valid_lin (n - length ids + 1) r
  end.
(** valid SSA path from the operands [rem], [next] being the next identifier *)
Fixpoint valid_ssa_from (rem : list nat) (next : nat) (p : lpath) : Prop :=
  match p with
  | [] => length rem = 1
  | ids :: r => ids <> [] /\ NoDup ids /\ incl ids rem /\
                valid_ssa_from (filter (fun x => negb (mem x ids)) rem ++ [next]) (S next) r
  end.
Definition valid_ssa (n : nat) (p : lpath) : Prop := valid_ssa_from (seq 0 n) n p.

(** the trees denoted *)
Fixpoint lin_run {A} (node : list A -> A) (ops : list A) (p : lpath) : option (list A) :=
  match p with
  | [] => Some ops
  | ids :: r => match picks ids ops with
                | Some l => lin_run node (keep_except ids ops ++ [node l]) r
                | None => None
                end
  end.
Definition lin_tree (n : nat) (p : lpath) : option ptree :=
  match lin_run PNode (map PLeaf (seq 0 n)) p with Some [t] => Some t | _ => None end.
Fixpoint ssa_run {A} (node : list A -> A) (table : list A) (p : lpath) : option (list A) :=
  match p with
  | [] => Some table
  | ids :: r => match picks ids table with
                | Some l => ssa_run node (table ++ [node l]) r
                | None => None
                end
  end.
(** the tree made last *)
Definition ssa_tree (n : nat) (p : lpath) : option ptree :=
  match ssa_run PNode (map PLeaf (seq 0 n)) p with
  | Some table => nth_error table (length table - 1)
  | None => None
  end.
