(** * Specification of contract() on nested objects: which objects it is claimed to be right for *)
From Verif Require Import Base Scalar NetSpec ModelArray ModelTN TNInv TNDelta TNSpec TNValue TNExact TNDeltaValue ModelContract
  ContractTemplate ContractMain ContractMerge ModelVal ModelNest NestSpec ModelDeep.
Set Implicit Arguments.

Section DeepSpec.
  Context {S : scalar}.
  Notation tval := (tval S).
  Notation net := (tn tval).
  Implicit Types (n m : net) (x y e : name) (v : tval).

  (** ** names *)
  (** complete_delta invents the edges (e, 1), (e, 2), ... for an edge e that is open more than once, fewer than there
      are open edges: no edge is called so, nor would an inner edge of a nested network be after expanding it *)
  Definition fresh n e : Prop := forall k, 1 <= k < length (opens n) ->
    ~ In (delta_edge e k) (keys (edges n)) /\ forall x m, held n x m -> ~ starts x (delta_edge e k).
  (** no node name is "*", a tuple that starts with "*", or the empty tuple; and [fresh] for the edges that are, or by merging may
      become, open more than once *)
  Definition unclashed n : Prop :=
    (forall x, In x (keys (nodes n)) -> exists c r, tup x = c :: r /\ c <> star) /\
    (((forall x m, held n x m -> straight m) /\ (forall e, 1 < times e (opens n) -> fresh n e)) \/
     (forall e, In e (opens n) \/ net_leg n (keys (nodes n)) e -> fresh n e)).

  (** ** objects with an array *)
  (** tensors with data, non-empty sums of terms of one shape, views of such objects, and networks of such
      objects: with all shapes known, in which the closed edges that are fixed are fixed to one value, also where nested
      networks join edges, and every set of edges so joined has one that is open, fixed or at another tensor ([sound],
      NestSpec.v).  A node does not hold a view: expand raises. *)
  Inductive well : tval -> Prop :=
  | well_tensor : forall d, well (VTensor (Some d))
  | well_sum : forall l dims, l <> [] -> (forall p, In p l -> well (snd p)) ->
      (forall p, In p l -> tval_shape (snd p) = Some (map Some dims)) -> well (VSum l)
  | well_view : forall f v, well v -> well (VView f v)
  | well_net : forall n k, regular n -> expandable k n (keys (nodes n)) -> sound n (keys (nodes n)) -> unclashed n ->
      (forall v, leaf n v -> well v) -> well (VNet n).

  (** [a] is the array of [v] *)
  Definition array_of v (a : nd S) : Prop :=
    tval_shape v = Some (map Some (nd_shape a)) /\
    forall idx, in_shape (nd_shape a) idx = true -> nd_at a idx = tval_value v idx.

  (** ** the schemes found *)
  (** [n] is [v] or one of the networks in it that are contracted on their own: under a view, a term of a sum, or
      in such an object held by a node.  (The networks held by nodes are expanded, not contracted.) *)
  Inductive inside : tval -> net -> Prop :=
  | inside_net : forall n, inside (VNet n) n
  | inside_leaf : forall n v m, leaf n v -> inside v m -> inside (VNet n) m
  | inside_sum : forall l p m, In p l -> inside (snd p) m -> inside (VSum l) m
  | inside_view : forall f v m, inside v m -> inside (VView f v) m.
  (** the scheme makes sense for the network, and its cost fits the memory *)
  Definition suits (memory : Z) n (q : Z * order * list name) : Prop :=
    let '(cost, o, split) := q in
    good_slices n split /\ order_okb n o /\ merge_ok n split /\ (cost * 48 <= memory * 2 ^ 30)%Z.
  (** the finder returns such a scheme for every network contracted, as the compiler sees it: expanded and completed *)
  Definition finds_for ord (memory : Z) (find : net -> Z * order * list name) v : Prop :=
    forall n fuel n', inside v n -> expand_and_delta ord fuel n = Ok (n', tt) -> suits memory n' (find n').
  (** no node has a name that is "#" or a tuple that starts with it, nor the empty tuple *)
  Definition no_hash n : Prop := forall x, In x (keys (nodes n)) -> exists c r, tup x = c :: r /\ c <> NS "#"%string.
End DeepSpec.
