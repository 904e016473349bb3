(** * What it costs to contract along a pairwise tree, independently of the code.

    [inputs] lists the index sets of the operands, [output] that of the result and [size] gives the size of
    every index. *)
From Coq Require Import List Arith ZArith Lia Bool Permutation.
From Verif Require Import Base PathSpec.
Import ListNotations.
Set Implicit Arguments.

(** every step of the tree contracts two tensors *)
Fixpoint binary (t : ptree) : Prop :=
  match t with
  | PLeaf _ => True
  | PNode [a; b] => binary a /\ binary b
  | PNode _ => False
  end.
(** the operands of a tree *)
Fixpoint tree_leaves (t : ptree) : list nat :=
  match t with PLeaf i => [i] | PNode l => flat_map tree_leaves l end.
(** a pairwise contraction tree for [n] operands: each is used once *)
Definition pairwise_tree (n : nat) (t : ptree) : Prop := binary t /\ Permutation (tree_leaves t) (seq 0 n).

Section Flops.
  Variables (size : nat -> Z) (output : list nat) (inputs : list (list nat)).
  Definition indices_of (i : nat) : list nat := nth i inputs [].

  (** an index is still needed after the subtree [t] when the output or an operand outside [t] has it *)
  Definition needed (t : ptree) (x : nat) : bool :=
    mem x output ||
    existsb (fun j => negb (mem j (tree_leaves t)) && mem x (indices_of j)) (seq 0 (length inputs)).
  (** the indices of the tensor that [t] denotes; an operand has those it was given with *)
  Definition tensor_indices (t : ptree) : list nat :=
    match t with
    | PLeaf i => indices_of i
    | PNode _ => nodup Nat.eq_dec (filter (needed t) (flat_map indices_of (tree_leaves t)))
    end.
  (** one step: a multiplication for every value of the indices of the two tensors, and an addition as
      well when an index they share is summed over *)
  Definition step_flops (a b : ptree) : Z :=
    (fold_right Z.mul 1 (map size (nodup Nat.eq_dec (tensor_indices a ++ tensor_indices b))) *
     (if existsb (fun x => mem x (tensor_indices b) && negb (needed (PNode [a; b]) x)) (tensor_indices a) then 2 else 1))%Z.
  Fixpoint tree_flops (t : ptree) : Z :=
    match t with
    | PNode [a; b] => (tree_flops a + tree_flops b + step_flops a b)%Z
    | _ => 0%Z
    end.

  (** an index occurs in an operand (Some i) or in the output (None) *)
  Definition occurs (x : nat) (o : option nat) : Prop :=
    match o with Some i => i < length inputs /\ In x (indices_of i) | None => In x output end.
  (** no index occurs in three places: an ordinary tensor network, without hyperedges *)
  Definition no_hyperedges : Prop :=
    forall x o1 o2 o3, occurs x o1 -> occurs x o2 -> occurs x o3 -> o1 = o2 \/ o2 = o3 \/ o1 = o3.
End Flops.
