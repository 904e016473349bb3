(** The complex numbers, as pairs of Coq's reals. *)
From Coq Require Import Reals.
From Verif Require Import Base Scalar.
Set Implicit Arguments.

Definition cadd (a b : R * R) : R * R := (fst a + fst b, snd a + snd b)%R.
Definition cmul (a b : R * R) : R * R := (fst a * fst b - snd a * snd b, fst a * snd b + snd a * fst b)%R.
Definition copp (a : R * R) : R * R := (- fst a, - snd a)%R.
Definition cconj (a : R * R) : R * R := (fst a, - snd a)%R.
Lemma Cring : ring_theory (0%R, 0%R) (1%R, 0%R) cadd cmul (fun a b => cadd a (copp b)) copp (@eq (R * R)).
Proof.
  constructor; intros; repeat match goal with a : (R * R)%type |- _ => destruct a end;
    unfold cadd, cmul, copp; cbn [fst snd]; apply injective_projections; cbn [fst snd]; ring.
Qed.
Definition CK : scalar.
Proof.
  refine (@Scalar (R * R) (0, 0)%R (1, 0)%R cadd cmul copp cconj Cring _ _ _);
    intros; unfold cadd, cmul, cconj; apply injective_projections; cbn [fst snd]; ring.
Defined.

(** a real number; the imaginary unit *)
Definition cr (x : R) : CK := (x, 0%R).
Definition ci : CK := (0%R, 1%R).
(** e^{ix} *)
Definition cis (x : R) : CK := (cos x, sin x).

Lemma ck_eq (a b : CK) : fst a = fst b -> snd a = snd b -> a = b.
Proof. intros. apply injective_projections; auto. Qed.
Ltac ck_unfold := cbn [k0 k1 kadd kmul kopp kconj CK cr ci cis cadd cmul copp cconj fst snd].
Ltac ck := apply ck_eq; cbv [k0 k1 kadd kmul kopp kconj CK cr ci cis cadd cmul copp cconj fst snd].
