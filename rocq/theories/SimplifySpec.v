(** * The size of a node and of the node that merging two nodes would give *)
From Verif Require Import Base Scalar NetSpec ModelArray ModelTN ModelVal NestSpec.
Set Implicit Arguments.

Section SimplifySpec.
  Context {S : scalar}.
  Notation net := (tn (tval S)).
  Implicit Types (n : net) (x e : name).

  (** the different edges of a node *)
  Definition edges_of n x : list name := match get x (nodes n) with Some nd => dedup (n_legs nd) | None => [] end.
  (** the edge joins the nodes a and b, and no other *)
  Definition joins_only n a b e : bool :=
    mem e (edges_of n a) && mem e (edges_of n b) &&
    forallb (fun p => eqb (fst p) a || eqb (fst p) b || negb (mem e (n_legs (snd p)))) (nodes n).
  (** the edges of the node that would replace a and b, if the edges that join them disappear *)
  Definition merged_edges n a b : list name :=
    filter (fun e => negb (joins_only n a b e)) (dedup (edges_of n a ++ edges_of n b)).
  (** an open edge belongs to one node *)
  Definition open_edges_simple n : Prop := forall e x y, In e (opens n) -> attached n x e -> attached n y e -> x = y.
End SimplifySpec.
