(** Model of partial_contract: contracting a part of a network in place. *)
From Verif Require Import Base Scalar NetSpec ModelArray ModelTN TNSpec ModelContract ModelVal ModelNest ModelDeep.
Set Implicit Arguments.

Section Part.
  Context {S : scalar}.
  Notation tval := (tval S).
  Notation net := (tn tval).
  Variable ord : list name -> list name.
  Variable memory : Z.
  Variable find : net -> Z * order * list name.

  (** tensor_network.py:677-683 partial_contract; [x] is stn_name, or the identifier of the new network;
      [fuel] bounds the depth of the contract() calls *)
  Definition partial_contract (fuel : nat) (xs es os : option (list name)) (x : name) : M (T := tval) unit :=
    let! p := encapsulate ord xs es os x in
    let! a := lift (contract_val ord memory find fuel (VNet (snd p))) in
    update_node (fst p) (VTensor (Some a)).
  (** several calls one after the other; the arguments of each are nodes, edges, open_edges, stn_name *)
  Definition contract_parts (fuel : nat) (l : list (option (list name) * option (list name) * option (list name) * name)) : M (T := tval) unit :=
    foreach (fun '(xs, es, os, x) => partial_contract fuel xs es os x) l.
End Part.
