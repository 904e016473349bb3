(** Scalars: an arbitrary commutative ring with a conjugation.
    The Python code computes with numpy float/complex arrays; the model computes
    exactly, in any structure of this kind.  Two instances are given below so
    that concrete examples can be evaluated: the integers and the Gaussian
    integers.  The complex numbers over Coq's reals are in [Complex.v]. *)
From Verif Require Import Base.
From Coq Require Export Ring Ring_theory.
Set Implicit Arguments.

Record scalar : Type := Scalar {
  K :> Type;
  k0 : K;
  k1 : K;
  kadd : K -> K -> K;
  kmul : K -> K -> K;
  kopp : K -> K;
  kconj : K -> K;
  kring : ring_theory k0 k1 kadd kmul (fun a b => kadd a (kopp b)) kopp (@eq K);
  kconj_add : forall a b, kconj (kadd a b) = kadd (kconj a) (kconj b);
  kconj_mul : forall a b, kconj (kmul a b) = kmul (kconj a) (kconj b);
  kconj_conj : forall a, kconj (kconj a) = a
}.

Arguments k0 {s}.
Arguments k1 {s}.
Arguments kadd {s} _ _.
Arguments kmul {s} _ _.
Arguments kopp {s} _.
Arguments kconj {s} _.

Declare Scope K_scope.
Delimit Scope K_scope with K.
Bind Scope K_scope with K.
Notation "0" := k0 : K_scope.
Notation "1" := k1 : K_scope.
Infix "+" := kadd : K_scope.
Infix "*" := kmul : K_scope.
Notation "- x" := (kopp x) : K_scope.

Section Facts.
  Variable S : scalar.
  Add Ring Kring : (kring S).
  Open Scope K_scope.
  Lemma kadd_comm (a b : S) : a + b = b + a. Proof. ring. Qed.
  Lemma kadd_assoc (a b c : S) : a + (b + c) = a + b + c. Proof. ring. Qed.
  Lemma kadd_0_l (a : S) : 0 + a = a. Proof. ring. Qed.
  Lemma kadd_0_r (a : S) : a + 0 = a. Proof. ring. Qed.
  Lemma kmul_comm (a b : S) : a * b = b * a. Proof. ring. Qed.
  Lemma kmul_assoc (a b c : S) : a * (b * c) = a * b * c. Proof. ring. Qed.
  Lemma kmul_1_l (a : S) : 1 * a = a. Proof. ring. Qed.
  Lemma kmul_1_r (a : S) : a * 1 = a. Proof. ring. Qed.
  Lemma kmul_0_l (a : S) : 0 * a = 0. Proof. ring. Qed.
  Lemma kmul_0_r (a : S) : a * 0 = 0. Proof. ring. Qed.
  Lemma kmul_add_l (a b c : S) : a * (b + c) = a * b + a * c. Proof. ring. Qed.
  Lemma kmul_add_r (a b c : S) : (b + c) * a = b * a + c * a. Proof. ring. Qed.
  Lemma kopp_add (a : S) : a + - a = 0. Proof. ring. Qed.
  Lemma kconj_1 : kconj (1 : S) = 1.
  Proof.
    transitivity (kconj (1 : S) * 1); [ring|].
    rewrite <- (kconj_conj S 1) at 2. rewrite <- kconj_mul.
    replace (1 * kconj 1) with (kconj (1 : S)) by ring. apply kconj_conj.
  Qed.
  Lemma kconj_0 : kconj (0 : S) = 0.
  Proof.
    assert (E : kconj (0 : S) + kconj 0 = kconj 0).
    { rewrite <- kconj_add. f_equal. ring. }
    transitivity (kconj (0 : S) + kconj 0 + - kconj 0); [ring|]. rewrite E. ring.
  Qed.
  Lemma kconj_opp (a : S) : kconj (- a) = - kconj a.
  Proof.
    assert (E : kconj (- a) + kconj a = 0).
    { rewrite <- kconj_add. replace (- a + a) with (0 : S) by ring. apply kconj_0. }
    transitivity (kconj (- a) + kconj a + - kconj a); [ring|]. rewrite E. ring.
  Qed.

  (** Kronecker delta of a condition *)
  Definition kdelta (b : bool) : S := if b then 1 else 0.
  Lemma kconj_delta b : kconj (kdelta b) = kdelta b.
  Proof. destruct b; [apply kconj_1|apply kconj_0]. Qed.
  Lemma kdelta_andb a b : kdelta (a && b) = kdelta a * kdelta b.
  Proof. destruct a, b; simpl; ring. Qed.

  (** n-fold sum of 1 *)
  Fixpoint knat (n : nat) : S := match n with O => 0 | Datatypes.S m => 1 + knat m end.
End Facts.
Arguments kdelta {S} b.

(** ** Integers, trivial conjugation *)
Definition Zring : ring_theory 0%Z 1%Z Z.add Z.mul (fun a b => Z.add a (Z.opp b)) Z.opp eq.
Proof.
  constructor; intros; try ring.
Qed.
Definition ZK : scalar :=
  @Scalar Z 0%Z 1%Z Z.add Z.mul Z.opp (fun x => x) Zring
    (fun _ _ => eq_refl) (fun _ _ => eq_refl) (fun _ => eq_refl).

(** ** Gaussian integers a + b i *)
Definition gadd (a b : Z * Z) : Z * Z := (fst a + fst b, snd a + snd b)%Z.
Definition gmul (a b : Z * Z) : Z * Z :=
  (fst a * fst b - snd a * snd b, fst a * snd b + snd a * fst b)%Z.
Definition gopp (a : Z * Z) : Z * Z := (- fst a, - snd a)%Z.
Definition gconj (a : Z * Z) : Z * Z := (fst a, - snd a)%Z.
Definition Gring : ring_theory (0%Z, 0%Z) (1%Z, 0%Z) gadd gmul
                     (fun a b => gadd a (gopp b)) gopp eq.
Proof.
  constructor; intros; repeat match goal with a : (Z * Z)%type |- _ => destruct a end;
    unfold gadd, gmul, gopp; cbn [fst snd]; apply injective_projections; cbn [fst snd]; ring.
Qed.
Definition GK : scalar.
Proof.
  refine (@Scalar (Z * Z) (0, 0)%Z (1, 0)%Z gadd gmul gopp gconj Gring _ _ _);
    intros; unfold gadd, gmul, gconj; apply injective_projections; cbn [fst snd]; ring.
Defined.
