(** * Specification of circuit expressions

    Expressions over gates with the operators of the package, what Python computes for them ([eval]), and what they mean
    ([den]: products, tensor products, conjugate transposes and controlled matrices). *)
From Verif Require Import Base Scalar NetSpec ModelArray ModelVal ModelOps OpsSpec ModelContract CircSpec ModelCircuit CircSem MatSpec.
Set Implicit Arguments.

Section Expr.
  Variable S : scalar.
  Local Open Scope K_scope.

  Inductive expr : Type :=
  | EGate (x : op S)
  | ESeq (a b : expr)                   (* a | b *)
  | EPar (a b : expr)                   (* a * b *)
  | EAdj (a : expr)                     (* ~a *)
  | ECtrl (cond : bool) (a : expr).     (* Controlled(a, cond) *)

  Fixpoint eval (e : expr) : res (op S) :=
    match e with
    | EGate x => Ok x
    | ESeq a b => do x <- eval a; do y <- eval b; op_or x y
    | EPar a b => do x <- eval a; do y <- eval b; op_mul x y
    | EAdj a => do x <- eval a; adj x
    | ECtrl c a => do x <- eval a; controlled c x
    end.

  (** the number of wires *)
  Fixpoint width (e : expr) : nat :=
    match e with
    | EGate x => match op_shape x with Ok sh => length sh | Err _ => 0 end
    | ESeq a _ => width a
    | EPar a b => width a + width b
    | EAdj a => width a
    | ECtrl _ a => 1 + width a
    end.
  (** the matrix: gates mean the entries of their own tensor *)
  Fixpoint den (e : expr) : mat S :=
    match e with
    | EGate x => fun o i => match tensor_pure x with Ok v => tval_value v (o ++ i) | Err _ => 0 end
    | ESeq a b => mmul (width a) (den b) (den a)
    | EPar a b => mkron (width a) (den a) (den b)
    | EAdj a => madj (den a)
    | ECtrl c a => mctrl c (den a)
    end.

  (** the value is a Circuit object *)
  Fixpoint is_circuit (e : expr) : bool :=
    match e with
    | EGate _ => false
    | ESeq _ _ | EPar _ _ => true
    | EAdj a => is_circuit a
    | ECtrl _ _ => false
    end.
  (** no Controlled of a circuit inside *)
  Fixpoint can_adj (e : expr) : bool :=
    match e with
    | EGate _ => true
    | ESeq a b | EPar a b => can_adj a && can_adj b
    | EAdj a => can_adj a
    | ECtrl _ a => negb (is_circuit a)
    end.
  (** no Controlled of a circuit inside, and no adjoint of a circuit *)
  Fixpoint can_ctrl (e : expr) : bool :=
    match e with
    | EGate _ => true
    | ESeq a b | EPar a b => can_ctrl a && can_ctrl b
    | EAdj a => can_ctrl a && negb (is_circuit a)
    | ECtrl _ a => negb (is_circuit a)
    end.
  (** a gate: a well-formed pure operation that is not itself a circuit, all of whose wires run through it; if it is
      flagged as self-adjoint, it is *)
  Definition gate_like (x : op S) : Prop :=
    op_wf x /\ op_pure x = Ok true /\ reversible x /\ (forall c, x <> OCirc c) /\
    exists sh, op_shape x = Ok sh /\ sh <> [] /\ forallb role_unitary sh = true.
  Fixpoint good (e : expr) : Prop :=
    match e with
    | EGate x => gate_like x
    | ESeq a b => good a /\ good b /\ width a = width b
    | EPar a b => good a /\ good b
    | EAdj a => good a /\ can_adj a = true
    | ECtrl _ a => good a /\ can_ctrl a = true
    end.
  (** the matrices of the gates are unitary *)
  Fixpoint unitary_gates (e : expr) : Prop :=
    match e with
    | EGate _ => munitary (width e) (den e)
    | ESeq a b | EPar a b => unitary_gates a /\ unitary_gates b
    | EAdj a | ECtrl _ a => unitary_gates a
    end.
End Expr.
Arguments EGate {S} x.
Arguments ESeq {S} a b.
Arguments EPar {S} a b.
Arguments EAdj {S} a.
Arguments ECtrl {S} cond a.
