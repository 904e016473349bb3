(** * Specification of quantum circuits

    Only definitions.  An operation acts on a list of wires.  Each wire has a word that says what the operation
    does to it in time order: I consumes the wire, O produces it ("io" for a gate, "o" for a preparation, "i" for
    a measurement, "oi" for a wire that exists only inside the operation, the empty word for a wire that is left
    alone).  [amp o i] is the amplitude between the bits of the consumed wires and those of the produced wires.

    The matrix of an operation on a register [Q] of wires is its amplitude tensored with the identity on the other
    wires, with the convention that a wire which does not exist carries the bit 0.  A circuit is the product of
    these matrices in order of time. *)
From Verif Require Import Base Scalar NetSpec Sums NetAlg.
Set Implicit Arguments.

Inductive letter : Type := LI | LO.
Definition word : Type := list letter.
Definition letter_eqb (a b : letter) : bool :=
  match a, b with LI, LI | LO, LO => true | _, _ => false end.

(** the first use consumes the wire; the last use produces it *)
Definition starts_in (w : word) : bool := match w with LI :: _ => true | _ => false end.
Definition ends_out (w : word) : bool := match last w LI with LO => true | LI => false end.
(** consumption and production alternate *)
Fixpoint alternating (w : word) : Prop :=
  match w with
  | a :: (b :: _) as r => a <> b /\ alternating r
  | _ => True
  end.

Section Spec.
  Variable S : scalar.
  Notation env := (env (A := name)).
  Local Open Scope K_scope.

  (** an operation placed on wires *)
  Record act : Type := Act { on : list name; words : list word; amp : list nat -> list nat -> S }.

  Definition word_at (g : act) (q : name) : word :=
    match get q (combine (on g) (words g)) with Some w => w | None => [] end.
  Definition act_ins (g : act) : list name := filter (fun q => starts_in (word_at g q)) (on g).
  Definition act_outs (g : act) : list name := filter (fun q => ends_out (word_at g q)) (on g).

  (** what an operation with word [w] on a wire allows on that wire *)
  Definition wire_ok (w : word) (before after : nat) : bool :=
    match w with
    | [] => Nat.eqb before after
    | _ => (starts_in w || Nat.eqb before 0) && (ends_out w || Nat.eqb after 0)
    end.

  Definition matrix (Q : list name) (g : act) (after before : env) : S :=
    kdelta (forallb (fun q => wire_ok (word_at g q) (before q) (after q)) Q)
    * amp g (map after (act_outs g)) (map before (act_ins g)).

  (** assignments of a bit to each wire of [Q] *)
  Definition qdom (Q : list name) : list (name * list nat) := map (fun q => (q, [0; 1]%nat)) Q.

  Definition state : Type := env -> S.
  Definition evolve (Q : list name) (g : act) (psi : state) : state :=
    fun after => esum (qdom Q) (fun before => matrix Q g after before * psi before) env0.
  (** the operations of [gs], the first one first *)
  Definition run (Q : list name) (gs : list act) (psi : state) : state :=
    fold_left (fun psi g => evolve Q g psi) gs psi.

  (** the basis state that carries the bits of [x] *)
  Definition basis (Q : list name) (x : env) : state :=
    fun y => kdelta (forallb (fun q => Nat.eqb (y q) (x q)) Q).
  (** the bits [bs] on the wires [qs], 0 elsewhere *)
  Definition place (qs : list name) (bs : list nat) : env := upds env0 qs bs.

  (** all uses of a wire, in order *)
  Definition history (gs : list act) (q : name) : word := concat (map (fun g => word_at g q) gs).
  (** inputs and outputs of a circuit *)
  Definition wires_in (Q : list name) (gs : list act) : list name := filter (fun q => starts_in (history gs q)) Q.
  Definition wires_out (Q : list name) (gs : list act) : list name := filter (fun q => ends_out (history gs q)) Q.

  Definition amplitude (Q : list name) (gs : list act) (o i : list nat) : S :=
    run Q gs (basis Q (place (wires_in Q gs) i)) (place (wires_out Q gs) o).

  (** the adjoint of an operation: consumption and production exchanged, amplitudes conjugated *)
  Definition flip_letter (a : letter) : letter := match a with LI => LO | LO => LI end.
  Definition flip_word (w : word) : word := map flip_letter (rev w).
  Definition act_adj (g : act) : act := Act (on g) (map flip_word (words g)) (fun o i => kconj (amp g i o)).

  (** a list of bits of length [n] *)
  Definition bits (n : nat) (l : list nat) : Prop := length l = n /\ Forall (fun b => b < 2)%nat l.
End Spec.
Arguments Act {S} on words amp.
Arguments on {S} a.
Arguments words {S} a.
Arguments amp {S} a _ _.
Arguments basis {S} Q x _.
