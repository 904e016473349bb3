(** * Specification for the nesting operations: which part of a network a request asks to move *)
From Verif Require Import Base Scalar NetSpec ModelTN TNInv TNDelta TNSpec TNValue TNExact ModelVal ModelNest.
Set Implicit Arguments.

Section NestSpec.
  Context {S : scalar}.
  Notation tval := (tval S).
  Notation net := (tn tval).
  Implicit Types (n m : net) (x y e : name).

  (** every node holds a tensor of known shape, which is that of its edges *)
  Definition sized n : Prop :=
    forall x nd, get x (nodes n) = Some nd -> exists t, n_val nd = Some t /\
      tval_shape t = Some (map (edim n) (n_legs nd)) /\ forall e, In e (n_legs nd) -> edim n e <> None.
  (** node [x] is attached to edge [e] *)
  Definition attached n x e : Prop := exists nd, get x (nodes n) = Some nd /\ In e (n_legs nd).
  (** every open edge has a dimension *)
  Definition opens_sized n : Prop := forall e, In e (opens n) -> edim n e <> None.
  (** a network as the edit operations build it, with all shapes known *)
  Record regular n : Prop := {
    rg_inv : inv n;
    rg_fix : fix_nodup n;
    rg_sized : sized n;
    rg_opens : opens_sized n
  }.
  (** the nodes and edges a request asks to move *)
  Definition chosen n (xs es : option (list name)) y : Prop :=
    match xs, es with
    | None, None => In y (keys (nodes n))
    | None, Some es => exists e, In e es /\ attached n y e
    | Some xs, _ => In y xs
    end.
  Definition moved n (xs es : option (list name)) e : Prop :=
    match es with
    | Some es => In e es
    | None => match xs with
              | None => In e (keys (edges n)) /\ ~ In e (opens n)
              | Some xs => (exists y, In y xs /\ attached n y e) /\ ~ In e (opens n) /\
                           forall y, attached n y e -> In y xs
              end
    end.
  Definition boundary n xs es e : Prop := (exists y, chosen n xs es y /\ attached n y e) /\ ~ moved n xs es e.
  (** the request names existing nodes once, and edges whose nodes are all among the chosen ones *)
  Record request n (xs es os : option (list name)) : Prop := {
    rq_nodes : forall l, xs = Some l -> NoDup l /\ incl l (keys (nodes n));
    rq_edges : forall l e, es = Some l -> In e l -> (exists y, attached n y e) /\ ~ In e (opens n) /\
                                           forall y, attached n y e -> chosen n xs es y;
    rq_opens : forall l e, os = Some l -> (xs, es) <> (None, None) -> In e l <-> boundary n xs es e;
    rq_fix : (xs, es) <> (None, None) -> forall e, boundary n xs es e -> is_fixed n e = false
  }.
  (** ** expanding *)
  (** node [x] holds the network [m] *)
  Definition held n x m : Prop := exists nd, get x (nodes n) = Some nd /\ n_val nd = Some (VNet m).
  (** neither a network nor a view *)
  Definition plain (v : option tval) : Prop := match v with Some (VNet _) | Some (VView _ _) => False | _ => True end.
  (** no node holds a network or a view *)
  Definition flat n : Prop := forall x nd, get x (nodes n) = Some nd -> plain (n_val nd).
  (** the components of a name, a name that is not a tuple being its only component *)
  Definition starts x y : Prop := exists r, tup y = tup x ++ r.
  (** no other node has a name that starts with the name of a network to expand, and no edge is a tuple that does *)
  Definition separate n (l : list name) : Prop := forall x m, In x l -> held n x m ->
    (forall y, In y (keys (nodes n)) -> starts x y -> y = x) /\ (forall e r, In e (keys (edges n)) -> e <> NT (tup x ++ r)).
  (** no network in [n], at any depth, has an edge that is open twice: expanding it merges no two outer edges *)
  Inductive straight n : Prop :=
  | Straight : NoDup (opens n) -> (forall x m, held n x m -> straight m) -> straight n.
  (** the edges at the networks that are not straight can be compared: merging picks the last in sorted order *)
  Definition net_leg n (l : list name) e : Prop :=
    exists x nd m, In x l /\ get x (nodes n) = Some nd /\ n_val nd = Some (VNet m) /\ In e (n_legs nd).
  Definition sortable n (l : list name) : Prop := exists bent,
    (forall x m, In x l -> held n x m -> In x bent \/ straight m) /\
    forall a b, net_leg n bent a -> net_leg n bent b -> exists r, name_lt a b = Ok r.
  (** names differ in their components: the name [a] and the tuple [(a,)] are not both used, nor is the empty tuple *)
  Definition distinct n : Prop :=
    ~ In (NT []) (keys (nodes n)) /\ ~ In (NT []) (keys (edges n)) /\
    (forall a b, In a (keys (nodes n)) -> In b (keys (nodes n)) -> tup a = tup b -> a = b) /\
    (forall a b, In a (keys (edges n)) -> In b (keys (edges n)) -> tup a = tup b -> a = b).
  (** the nodes [l] of [n] can be expanded: networks are nested at most [k] deep there *)
  Fixpoint expandable (k : nat) n (l : list name) : Prop :=
    separate n l /\ sortable n l /\
    forall x nd, In x l -> get x (nodes n) = Some nd ->
      match n_val nd with
      | Some (VNet m) => match k with
                         | O => False
                         | Datatypes.S k => regular m /\ distinct m /\ expandable k m (keys (nodes m))
                         end
      | Some (VView _ _) => False
      | _ => True
      end.
  (** every node and edge is named by an integer, in [n] and in the networks it holds, at most [k] deep; no views *)
  Fixpoint int_named (k : nat) n : Prop :=
    (forall x, In x (keys (nodes n) ++ keys (edges n)) -> exists z, x = NI z) /\
    forall x nd, get x (nodes n) = Some nd ->
      match n_val nd with
      | Some (VNet m) => match k with O => False | Datatypes.S k => regular m /\ int_named k m end
      | Some (VView _ _) => False
      | _ => True
      end.
  (** ** networks that can be contracted after expanding them *)
  (** every edge is open, fixed, or attached to a node *)
  Definition lively n : Prop :=
    forall e ed, get e (edges n) = Some ed -> In e (opens n) \/ e_fix ed <> None \/ exists x, attached n x e.
  (** a closed fixed edge is fixed to one value *)
  Definition one_value n : Prop :=
    forall e ed fx, get e (edges n) = Some ed -> e_fix ed = Some fx -> ~ In e (opens n) -> exists v, fx = [v].
  (** open edges are not fixed and attached to some node *)
  Definition bare_opens n : Prop := forall e, In e (opens n) -> is_fixed n e = false /\ exists x, attached n x e.
  (** an edge at a network that is not straight is not fixed *)
  Definition loose n (l : list name) : Prop := forall x nd m, In x l -> get x (nodes n) = Some nd -> n_val nd = Some (VNet m) ->
    straight m \/ forall e, In e (n_legs nd) -> is_fixed n e = false.
  (** a nested network: so is every network in it *)
  Inductive tame n : Prop :=
  | Tame : lively n -> one_value n -> bare_opens n -> loose n (keys (nodes n)) ->
           (forall x m, held n x m -> tame m) -> tame n.
  (** the same for the network itself, whose open edges may be fixed or not attached, and the nodes [l] of it *)
  Definition tidy n (l : list name) : Prop :=
    lively n /\ one_value n /\ loose n l /\
    (forall x m, In x l -> held n x m -> tame m).
  (** ** a weaker condition on fixed and on unattached edges *)
  (** every fixed edge (the open ones only when [s] is true) is fixed to the one value that [f] gives it *)
  Definition fixed_as (s : bool) (f : name -> nat) n : Prop :=
    forall e ed fx, get e (edges n) = Some ed -> e_fix ed = Some fx -> s = true \/ ~ In e (opens n) -> fx = [f e].
  (** so it is in the networks that [n] holds, and [f] gives an outer edge the value of the open edge it is joined with *)
  Inductive valued (f : name -> nat) n : Prop :=
  | Valued : fixed_as true f n ->
      (forall x nd m, get x (nodes n) = Some nd -> n_val nd = Some (VNet m) ->
         exists g, valued g m /\ map g (opens m) = map f (n_legs nd)) -> valued f n.
  (** the edges in [P] are not fixed, and joined only with each other: no tensor other than a network is attached to them, and a
      network only through its edges in such a set *)
  Inductive dead (P : name -> Prop) n : Prop :=
  | Dead : (forall e, P e -> In e (keys (edges n)) /\ is_fixed n e = false) ->
      (forall x nd e, get x (nodes n) = Some nd -> (forall m, n_val nd <> Some (VNet m)) -> In e (n_legs nd) -> ~ P e) ->
      (forall x nd m, get x (nodes n) = Some nd -> n_val nd = Some (VNet m) ->
         exists Q, dead Q m /\ Forall2 (fun e o => P e <-> Q o) (n_legs nd) (opens m)) -> dead P n.
  (** the same for a network in which only the nodes [l] are expanded *)
  Definition valued_on (s : bool) (l : list name) (f : name -> nat) n : Prop :=
    fixed_as s f n /\
    forall x nd m, In x l -> get x (nodes n) = Some nd -> n_val nd = Some (VNet m) ->
      exists g, valued g m /\ map g (opens m) = map f (n_legs nd).
  Definition dead_on (l : list name) (P : name -> Prop) n : Prop :=
    (forall e, P e -> In e (keys (edges n)) /\ is_fixed n e = false) /\
    (forall x nd e, get x (nodes n) = Some nd -> ~ In x l \/ (forall m, n_val nd <> Some (VNet m)) -> In e (n_legs nd) -> ~ P e) /\
    (forall x nd m, In x l -> get x (nodes n) = Some nd -> n_val nd = Some (VNet m) ->
       exists Q, dead Q m /\ Forall2 (fun e o => P e <-> Q o) (n_legs nd) (opens m)).
  (** every set of edges that are joined with each other has an open edge, a fixed one, or one with a tensor attached; and so it is
      in the networks that [n] holds *)
  Inductive live n : Prop :=
  | Live : (forall P, dead P n -> forall e, P e -> exists o, P o /\ In o (opens n)) -> (forall x m, held n x m -> live m) -> live n.
  (** every edge is fixed to at most one value, if at all, and so it is in the networks that [n] holds *)
  Inductive few n : Prop :=
  | Few : (forall e ed fx, In (e, ed) (edges n) -> e_fix ed = Some fx -> length fx <= 1) ->
          (forall x nd m, In (x, nd) (nodes n) -> n_val nd = Some (VNet m) -> few m) -> few n.
  (** closed edges are fixed to one value, which agrees along the networks that join edges, or all edges are fixed to at most one value,
      whether these agree or not; and [live] for the expanded nodes [l] *)
  Definition sound n (l : list name) : Prop :=
    ((exists f, valued_on false l f n) \/ few n) /\
    (forall P, dead_on l P n -> forall e, P e -> exists o, P o /\ In o (opens n)) /\
    (forall x m, In x l -> held n x m -> live m).
  (** the tensors other than networks and views in the nodes of [n] and of the networks it holds *)
  Inductive leaf n (v : tval) : Prop :=
  | leaf_here : forall x nd, get x (nodes n) = Some nd -> n_val nd = Some v -> plain (Some v) -> leaf n v
  | leaf_in : forall x m, held n x m -> leaf m v -> leaf n v.

  (** no edge is fixed *)
  Definition no_fixes n : Prop := forall e, is_fixed n e = false.
End NestSpec.
