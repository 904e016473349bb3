(** The value of a modelled network, stated with the specification [NetSpec]: every edge
    ranges over the values it was fixed to, or else over 0..dim-1; every node is a tensor whose
    legs are the edges it is attached to; the output labels are the open edges. *)
From Verif Require Import Base Scalar NetSpec ModelTN.
Set Implicit Arguments.

Definition edge_values (ed : edge) : list nat :=
  match e_fix ed with
  | Some l => l
  | None => match e_dim ed with Some d => seq 0 d | None => [] end
  end.

Section Value.
  Context {S : scalar} {T : Type}.
  (** [pv t] is the array of entries of the tensor [t] *)
  Variable pv : T -> list nat -> S.

  Definition node_term (p : name * node T) : term S (A := name) :=
    Term (n_legs (snd p))
         (match n_val (snd p) with Some t => pv t | None => fun _ => 0%K end).
  Definition tn_dom (n : tn T) : list (name * list nat) :=
    map (fun p => (fst p, edge_values (snd p))) (edges n).
  Definition tn_terms (n : tn T) : list (term S (A := name)) := map node_term (nodes n).
  Definition tn_value (n : tn T) (o : list nat) : S :=
    net_value (tn_dom n) (tn_terms n) (opens n) o.
End Value.
