(** * Specification of contracting a network part by part *)
From Coq Require Import String.
From Verif Require Import Base Scalar NetSpec ModelArray ModelTN TNInv TNDelta TNSpec TNValue TNExact TNDeltaValue ModelContract
  ContractTemplate ContractMain ContractMerge ModelVal ModelNest NestSpec ModelDeep DeepSpec.
Set Implicit Arguments.

Section PartSpec.
  Context {S : scalar}.
  Notation tval := (tval S).
  Notation net := (tn tval).
  Implicit Types (n m : net) (x y e : name) (v : tval).

  (** ** networks of which any part can be contracted: the networks in it are straight *)
  Definition ready n : Prop := regular n /\ (exists k, expandable k n (keys (nodes n))) /\ tidy n (keys (nodes n)) /\ unclashed n /\
    (forall x q, held n x q -> straight q) /\ forall v, leaf n v -> well v.
  (** ** what partial_contract does: [replaced n xs es x m a n'] says that [n'] is [n] with the part [m] replaced by one node with
      the array [a] *)
  Record replaced n xs es x m (a : nd S) n' : Prop := {
    rp_regular : regular n';
    rp_value : forall o, tn_value (@tval_value S) n' o = tn_value (@tval_value S) n o;
    rp_opens : opens n' = opens n;
    rp_new : get x (nodes n') = Some (Node (opens m) true (Some (VTensor (Some a))));
    rp_legs : (xs, es) <> (None, None) -> forall e, In e (opens m) <-> boundary n xs es e;
    rp_gone : forall y, y <> x -> chosen n xs es y -> get y (nodes n') = None;
    rp_kept : forall y, y <> x -> ~ chosen n xs es y -> get y (nodes n') = get y (nodes n);
    rp_moved : forall e, moved n xs es e -> get e (edges n') = None;
    rp_stays : forall e, ~ moved n xs es e -> get e (edges n') = get e (edges n);
    (* chosen and moved are decidable *)
    rp_dec : forall y, chosen n xs es y \/ ~ chosen n xs es y;
    rp_dece : forall e, moved n xs es e \/ ~ moved n xs es e
  }.
  (** a name for the new node: not "*" or "#", nor a tuple that starts with one of these, nor one that starts with the name of a
      node that holds a network *)
  Definition good_name n x : Prop := (exists c r, tup x = c :: r /\ c <> star /\ c <> NS "#"%string) /\ forall y q, held n y q -> starts y x -> y = x.
  (** a list of calls, each of which makes sense for the network it is applied to: it chooses nodes and edges of it, gives no open
      edge twice, and gives the new node a name that is free once the chosen nodes are gone *)
  Definition request_t := (option (list name) * option (list name) * option (list name) * name)%type.
  Fixpoint parts_ok n (l : list request_t) : Prop :=
    match l with
    | [] => True
    | (xs, es, os, x) :: r =>
        request n xs es os /\ (forall q, os = Some q -> NoDup q) /\ (In x (keys (nodes n)) -> chosen n xs es x) /\ good_name n x /\
        forall m a n', replaced n xs es x m a n' -> parts_ok n' r
    end.
  (** no node of [n], or of a network in it that is contracted on its own, is called "#" or by a tuple that starts with it *)
  Definition all_no_hash n : Prop := forall q, inside (VNet n) q -> no_hash q.
End PartSpec.
