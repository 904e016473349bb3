(** * Unrooted contraction trees, independently of the code.

    A pairwise path denotes a binary tree.  The order of the two operands of a step does not matter, and
    the edge at which the tree is rooted does not matter either for the tree seen as an unrooted one. *)
From Coq Require Import List Arith ZArith Lia Bool Permutation.
From Verif Require Import Base PathSpec.
Import ListNotations.
Set Implicit Arguments.

(** every step takes two operands *)
Definition pairwise (p : lpath) : Prop := Forall (fun s => length s = 2) p.

(** the same tree, the operands of a step being taken in either order *)
Inductive swapped : ptree -> ptree -> Prop :=
| sw_leaf i : swapped (PLeaf i) (PLeaf i)
| sw_keep a b a' b' : swapped a a' -> swapped b b' -> swapped (PNode [a; b]) (PNode [a'; b'])
| sw_swap a b a' b' : swapped a a' -> swapped b b' -> swapped (PNode [a; b]) (PNode [b'; a']).

(** the same unrooted tree: the root may move to a neighbouring edge *)
Inductive rerooted : ptree -> ptree -> Prop :=
| rr_swap a b : swapped a b -> rerooted a b
| rr_move x y z : rerooted (PNode [PNode [x; y]; z]) (PNode [x; PNode [y; z]])
| rr_back x y z : rerooted (PNode [x; PNode [y; z]]) (PNode [PNode [x; y]; z])
| rr_trans a b c : rerooted a b -> rerooted b c -> rerooted a c.

(** the result of exchanging two subtrees c0 and c1 hanging from the two ends of an inner edge *)
Definition exchanged (c0 c1 : ptree) (a b : ptree) : Prop :=
  exists x y, rerooted a (PNode [PNode [c0; x]; PNode [c1; y]]) /\ rerooted b (PNode [PNode [c1; x]; PNode [c0; y]]).

(** ** the tree as a graph: [A x] lists the neighbours of the node [x]; the nodes below [n] are the operands *)

(** [S] is what is seen when entering the node [t] from its neighbour [p] *)
Inductive behind (n : nat) (A : nat -> list nat) : nat -> nat -> ptree -> Prop :=
| br_leaf p i : i < n -> A i = [p] -> behind n A p i (PLeaf i)
| br_node p v l r L R : n <= v -> Permutation (A v) [p; l; r] -> behind n A v l L -> behind n A v r R ->
    behind n A p v (PNode [L; R]).
(** [T] is the tree seen from the edge between [u] and [v] *)
Definition seen_from (n : nat) (A : nat -> list nat) (u v : nat) (T : ptree) : Prop :=
  exists L R, behind n A v u L /\ behind n A u v R /\ swapped (PNode [L; R]) T.
(** a path without repeated nodes *)
Definition simple_path (A : nat -> list nat) (s : list nat) : Prop :=
  NoDup s /\ forall s1 x y s2, s = s1 ++ x :: y :: s2 -> In y (A x).
(** the graph after u-c0 and v-c1 are replaced by u-c1 and v-c0 *)
Definition same_edge (x y a b : nat) : Prop := (x = a /\ y = b) \/ (x = b /\ y = a).
Definition edges_exchanged (A A' : nat -> list nat) (u c0 v c1 : nat) : Prop :=
  forall x y, In y (A' x) <->
    same_edge x y u c1 \/ same_edge x y v c0 \/ (In y (A x) /\ ~ same_edge x y u c0 /\ ~ same_edge x y v c1).

(** ** the cost of a pairwise contraction tree.  [subs] gives the subscripts of each operand, [opens] those of the output. *)
Section Cost.
  Variables (subs : nat -> list nat) (opens : list nat).
  (** the subscripts occurring in a tree *)
  Fixpoint all_subs (T : ptree) : list nat :=
    match T with PLeaf i => subs i | PNode l => flat_map all_subs l end.
  (** the subscripts of the tensor that [T] denotes, [out] being the subscripts occurring elsewhere; operands are not reduced *)
  Definition kept (T : ptree) (out : list nat) : list nat :=
    match T with
    | PLeaf i => subs i
    | PNode _ => filter (fun s => existsb (Nat.eqb s) out || existsb (Nat.eqb s) opens) (all_subs T)
    end.
  (** contracting two tensors into one: 2 to the number of subscripts involved, twice that if one is summed over *)
  Definition pair_flops (a b r : list nat) : Z :=
    ((if forallb (fun s => existsb (Nat.eqb s) r) (a ++ b) then 1 else 2) * 2 ^ Z.of_nat (length (nodup Nat.eq_dec (a ++ b ++ r))))%Z.
  Fixpoint tree_flops (T : ptree) (out : list nat) : Z :=
    match T with
    | PNode [L; R] =>
        (tree_flops L (out ++ all_subs R) + tree_flops R (out ++ all_subs L)
         + pair_flops (kept L (out ++ all_subs R)) (kept R (out ++ all_subs L)) (kept T out))%Z
    | _ => 0%Z
    end.
  (** the whole contraction: the last step produces the output *)
  Definition total_flops (T : ptree) : Z :=
    match T with
    | PNode [L; R] => (tree_flops L (all_subs R) + tree_flops R (all_subs L) + pair_flops (kept L (all_subs R)) (kept R (all_subs L)) opens)%Z
    | _ => 0%Z
    end.
End Cost.
