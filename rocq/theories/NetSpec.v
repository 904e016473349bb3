(** * Specification: the value of a tensor network

    This file is the independent specification against which the model of acqdp
    is proved.  It contains only definitions.

    A network is a list of tensors with labelled legs ([term]), a finite set of
    values for every label (the domain) and a list of output labels, possibly with
    repetitions.  Its value at an output index is the sum, over all assignments of
    values to labels that agree with the output index, of the product of the tensor
    entries selected by the assignment.  (docsource/source/tensor_network.rst,
    "Einstein summation": all matching indices are identified, closed indices are
    summed over, an edge may appear several times on the right hand side.) *)
From Verif Require Import Base Scalar.
Set Implicit Arguments.
Open Scope K_scope.

Section Spec.
  Variable S : scalar.

  (** finite sums and products over lists *)
  Section Big.
    Context {X : Type} (f : X -> S).
    Fixpoint sumf (l : list X) : S :=
      match l with [] => 0 | x :: r => f x + sumf r end.
    Fixpoint prodf (l : list X) : S :=
      match l with [] => 1 | x :: r => f x * prodf r end.
  End Big.

  Context {A : Type} `{Eqb A}.

  (** an assignment of a value to every label *)
  Definition env : Type := A -> nat.
  Definition upd (s : env) (a : A) (v : nat) : env := fun x => if eqb x a then v else s x.

  (** sum over all assignments that differ from [s] only on the labels of [d],
      where a label [a] with [(a, vs)] in [d] ranges over the values [vs] *)
  Fixpoint esum (d : list (A * list nat)) (f : env -> S) (s : env) : S :=
    match d with
    | [] => f s
    | (a, vs) :: r => sumf (fun v => esum r f (upd s a v)) vs
    end.

  Record term : Type := Term { legs : list A; entry : list nat -> S }.

  Definition term_at (s : env) (t : term) : S := entry t (map s (legs t)).

  Definition env0 : env := fun _ => 0%nat.

  (** the value of a network at output index [o] *)
  Definition net_value (d : list (A * list nat)) (ts : list term) (out : list A)
             (o : list nat) : S :=
    esum d (fun s => kdelta (eqb (map s out) o) * prodf (term_at s) ts) env0.
End Spec.

Arguments sumf {S X} f l.
Arguments prodf {S X} f l.
Arguments esum {S A _} d f s.
Arguments Term {S A} legs entry.
Arguments legs {S A} t.
Arguments entry {S A} t _.
Arguments term_at {S A} s t.
Arguments env0 {A} _.
Arguments net_value {S A _} d ts out o.
Arguments upd {A _} s a v _.
