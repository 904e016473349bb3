(** Histories of calls on one TensorNetwork object: the public edit methods of
    acqdp/tensor_network/tensor_network.py as one type of calls, and their execution. *)
From Verif Require Import Base ModelTN.
Set Implicit Arguments.

Section Hist.
  Context {T : Type} `{PT : Payload T}.
  Notation net := (tn T).

  (** One call.  Values returned by the methods are dropped here: a history only looks at the
      network and at whether the call raised. *)
  Inductive call : Type :=
  | CAddEdge (e : name) (d : option nat)                                   (* :392-411 *)
  | CUpdateDim (dic : list (name * option nat))                            (* :263-289 *)
  | COpenEdge (e : name) (d : option nat)                                  (* :413-424 *)
  | CCloseEdge (e : name)                                                  (* :426-435 *)
  | CAddNode (x : name) (es : option (list name)) (t : T) (is_open : bool) (* :291-338 *)
  | CUpdateNode (x : name) (t : T)                                         (* :369-391 *)
  | CPopNode (x : name)                                                    (* :340-352 *)
  | CRemoveNode (x : name)                                                 (* :354-367 *)
  | CFixEdge (e : name) (vals : list nat) (change_fix : bool)              (* :437-464 *)
  | CFixIndex (i : nat) (vals : list nat)                                  (* :466-472 *)
  | CFix                                                                   (* :474-488 *)
  | CCompleteDelta                                                         (* :490-526 *)
  | CMergeEdges (es : list name) (merge_to : name)                         (* :528-568 *)
  | CRewire (x : name) (leg : nat) (to : name).                            (* :570-592 *)

  Definition drop {A} (m : M (T := T) A) : M (T := T) unit := let! _ := m in ret tt.

  Definition do_call (c : call) : M (T := T) unit :=
    match c with
    | CAddEdge e d => drop (add_edge e d)
    | CUpdateDim dic => update_dimension dic
    | COpenEdge e d => open_edge e d
    | CCloseEdge e => close_edge e
    | CAddNode x es t op => drop (add_node x es t op)
    | CUpdateNode x t => update_node x t
    | CPopNode x => drop (pop_node x)
    | CRemoveNode x => drop (remove_node x)
    | CFixEdge e vals c => fix_edge e vals c
    | CFixIndex i vals => fix_index i vals
    | CFix => modify fix_all
    | CCompleteDelta => complete_delta
    | CMergeEdges es mt => drop (merge_edges es mt)
    | CRewire x leg to => rewire x leg to
    end.

  (** a call that returned normally *)
  Definition succeeds (c : call) (n n' : net) : Prop := do_call c n = (n', Ok tt).

  (** networks reachable by calls that all returned normally, each satisfying [ok] in the
      network it is made on *)
  Inductive reach (ok : net -> call -> Prop) : net -> net -> Prop :=
  | reach_nil n : reach ok n n
  | reach_snoc n n1 n2 c : reach ok n n1 -> ok n1 c -> succeeds c n1 n2 -> reach ok n n2.
End Hist.
Arguments call T : clear implicits.
