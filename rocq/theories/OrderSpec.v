(** * What a contraction order is, independently of the code.

    An order is a list of steps; a step takes some tensors, named, and makes a new one.  This file
    says what it means for an order to contract a given list of leaves into one tensor, gives an
    equivalent step-by-step reading, and proves both agree. *)
From Coq Require Import List Arith Lia Permutation Bool.
From Verif Require Import Base.
Import ListNotations.
Set Implicit Arguments.

(** A step of a contraction order: the tensors it takes, the tensor it makes. *)
Definition ostep : Type := list name * name.
Definition gorder : Type := list ostep.

Definition operands (o : gorder) : list name := concat (map fst o).
Definition results (o : gorder) : list name := map snd o.

(** [o] is a complete order over [leaves] ending in [fin]: its last step makes [fin]; every step makes
    a tensor with a new name; every leaf and every intermediate tensor is used exactly once; and every
    tensor used by a step is a leaf or was made by an earlier step. *)
Record complete_order (leaves : list name) (o : gorder) (fin : name) : Prop := {
  co_last : exists o' l, o = o' ++ [(l, fin)];
  co_names : NoDup (leaves ++ results o);
  co_once : Permutation (operands o) (leaves ++ removelast (results o));
  co_earlier : forall o1 l z o2 x, o = o1 ++ (l, z) :: o2 -> In x l -> In x leaves \/ In x (results o1)
}.

(** every step takes exactly two tensors *)
Definition pairwise (o : gorder) : Prop := Forall (fun s => length (fst s) = 2) o.

(** The leaves below each tensor of an order: a table from names to lists of leaves, extended step by
    step. *)
Definition below_step (env : list (name * list name)) (s : ostep) : list (name * list name) :=
  env ++ [(snd s, concat (map (fun x => match get x env with Some l => l | None => [] end) (fst s)))].
Definition below (leaves : list name) (o : gorder) : list (name * list name) :=
  fold_left below_step o (map (fun x => (x, [x])) leaves).

(** ** Reading an order step by step

    [red p o q]: starting with the tensors [p], the steps [o] leave the tensors [q]. *)
Fixpoint red (p : list name) (o : gorder) (q : list name) : Prop :=
  match o with
  | [] => Permutation p q
  | (l, z) :: r => exists rest, Permutation p (l ++ rest) /\ red (z :: rest) r q
  end.

Lemma red_perm_l o : forall p p' q, Permutation p p' -> red p o q -> red p' o q.
Proof.
  destruct o as [|[l z] r]; simpl; intros p p' q P R.
  - transitivity p; auto. symmetry; auto.
  - destruct R as (rest & P' & R). exists rest. split; auto. transitivity p; auto. symmetry; auto.
Qed.

Lemma red_perm_r o : forall p q q', Permutation q q' -> red p o q -> red p o q'.
Proof.
  induction o as [|[l z] r IH]; simpl; intros p q q' P R.
  - transitivity q; auto.
  - destruct R as (rest & P' & R). exists rest. split; eauto.
Qed.

Lemma red_frame o : forall p q f, red p o q -> red (p ++ f) o (q ++ f).
Proof.
  induction o as [|[l z] r IH]; simpl; intros p q f R.
  - apply Permutation_app_tail; auto.
  - destruct R as (rest & P' & R). exists (rest ++ f). split.
    + rewrite app_assoc. apply Permutation_app_tail; auto.
    + apply (IH (z :: rest)); auto.
Qed.

Lemma red_app o1 : forall o2 p q r, red p o1 q -> red q o2 r -> red p (o1 ++ o2) r.
Proof.
  induction o1 as [|[l z] o1 IH]; simpl; intros o2 p q r R1 R2.
  - apply red_perm_l with q; auto. symmetry; auto.
  - destruct R1 as (rest & P' & R). exists rest. split; eauto.
Qed.

Lemma red_split o1 : forall o2 p r, red p (o1 ++ o2) r -> exists q, red p o1 q /\ red q o2 r.
Proof.
  induction o1 as [|[l z] o1 IH]; simpl; intros o2 p r R.
  - exists p. auto.
  - destruct R as (rest & P' & R). destruct (IH _ _ _ R) as (q & A & B). exists q. split; auto.
    exists rest. auto.
Qed.

(** nothing is lost: the tensors at the start together with those made are those used together with
    those at the end *)
Lemma red_balance o : forall p q, red p o q -> Permutation (p ++ results o) (operands o ++ q).
Proof.
  induction o as [|[l z] r IH]; simpl; intros p q R.
  - unfold operands; simpl. rewrite app_nil_r. auto.
  - destruct R as (rest & P & R). apply IH in R. unfold operands in *; simpl.
    rewrite P, <- !app_assoc. apply Permutation_app_head.
    rewrite <- R. simpl. symmetry. rewrite app_comm_cons. apply Permutation_cons_app. reflexivity.
Qed.

Lemma red_earlier o : forall p q, red p o q ->
  forall o1 l z o2 x, o = o1 ++ (l, z) :: o2 -> In x l -> In x p \/ In x (results o1).
Proof.
  induction o as [|[l0 z0] r IH]; intros p q R o1 l z o2 x E I.
  - destruct o1; discriminate.
  - destruct R as (rest & P & R). destruct o1 as [|s o1]; simpl in E; inversion E; subst.
    + left. apply Permutation_in with (l ++ rest); [symmetry; auto|]. apply in_or_app; auto.
    + destruct (IH _ _ R _ _ _ _ _ eq_refl I) as [[->|J]|J].
      * right. left. auto.
      * left. apply Permutation_in with (l0 ++ rest); [symmetry; auto|]. apply in_or_app; auto.
      * right. right. auto.
Qed.

Lemma results_app a b : results (a ++ b) = results a ++ results b.
Proof. apply map_app. Qed.
Lemma operands_app a b : operands (a ++ b) = operands a ++ operands b.
Proof. unfold operands. rewrite map_app, concat_app. auto. Qed.
Lemma removelast_results o s : removelast (results (o ++ [s])) = results o.
Proof. rewrite results_app. simpl. apply removelast_last. Qed.

Lemma red_last o : forall p q, red p o q -> o <> [] -> exists o' l z, o = o' ++ [(l, z)] /\ In z q.
Proof.
  induction o as [|[l z] r IH]; intros p q R N; [congruence|].
  destruct R as (rest & P & R). destruct r as [|s r].
  - exists [], l, z. split; auto. simpl in R. apply Permutation_in with (z :: rest); simpl; auto.
  - destruct (IH _ _ R) as (o' & l' & z' & E & I); [discriminate|]. exists ((l, z) :: o'), l', z'.
    split; auto. rewrite E. auto.
Qed.

(** an order that runs down to one tensor, with new names, is complete *)
Lemma red_complete leaves o fin :
  o <> [] -> NoDup (leaves ++ results o) -> red leaves o [fin] -> complete_order leaves o fin.
Proof.
  intros N ND R. destruct (red_last _ _ R N) as (o' & l & z & E & I). simpl in I. destruct I as [->|[]].
  constructor; auto.
  - exists o', l. auto.
  - pose proof (red_balance _ _ _ R) as B. rewrite E in *. rewrite removelast_results.
    rewrite results_app in B. simpl in B.
    apply Permutation_app_inv_r with [z]. rewrite <- B. rewrite app_assoc. reflexivity.
  - intros. eapply red_earlier; eauto.
Qed.

(** and conversely *)
Lemma incl_perm_rest (l p : list name) : NoDup l -> incl l p -> exists rest, Permutation p (l ++ rest).
Proof.
  intros N. revert p. induction l as [|x l IH]; intros p I.
  - exists p. auto.
  - inversion N; subst. assert (Ix : In x p) by (apply I; left; auto).
    destruct (in_split _ _ Ix) as (a & b & ->).
    destruct (IH H2 (a ++ b)) as (rest & P).
    { intros y Iy. assert (J := I y (or_intror Iy)). apply in_app_or in J. apply in_or_app. simpl in J.
      destruct J as [J|[J|J]]; auto. subst. contradiction. }
    exists rest. simpl. rewrite <- P. symmetry. apply Permutation_middle.
Qed.

Lemma complete_red_gen o : forall p q,
  NoDup (p ++ results o) -> Permutation (p ++ results o) (operands o ++ q) ->
  (forall o1 l z o2 x, o = o1 ++ (l, z) :: o2 -> In x l -> In x p \/ In x (results o1)) -> red p o q.
Proof.
  induction o as [|[l z] r IH]; intros p q ND P E.
  - unfold operands in P; simpl in P. rewrite app_nil_r in P. auto.
  - unfold operands in P; simpl in P. simpl.
    assert (NO : NoDup (l ++ concat (map fst r) ++ q)).
    { apply Permutation_NoDup with (p ++ z :: results r); [rewrite app_assoc|]; auto. }
    assert (Nl : NoDup l) by (apply NoDup_app_iff in NO; tauto).
    destruct (@incl_perm_rest l p Nl) as (rest & Pr).
    { intros x Ix. destruct (E [] l z r x eq_refl Ix) as [J|[]]. auto. }
    exists rest. split; auto. apply IH.
    + simpl. simpl in ND. rewrite Pr in ND. rewrite <- app_assoc in ND. apply NoDup_app_iff in ND.
      destruct ND as (_ & ND & _). apply Permutation_NoDup with (rest ++ z :: results r); auto.
      symmetry. apply Permutation_cons_app. auto.
    + simpl. rewrite Pr in P. rewrite <- !app_assoc in P. apply Permutation_app_inv_l in P.
      unfold operands. rewrite <- P. symmetry. rewrite app_comm_cons.
      rewrite <- Permutation_middle. reflexivity.
    + intros o1 l1 z1 o2 x Eo Ix. subst r.
      destruct (E ((l, z) :: o1) l1 z1 o2 x eq_refl Ix) as [J|J].
      * apply (Permutation_in _ Pr) in J. apply in_app_or in J. destruct J as [J|J]; [|left; right; auto].
        exfalso. apply NoDup_app_iff in NO. destruct NO as (_ & _ & D). apply (D x J).
        apply in_or_app. left. rewrite map_app, concat_app. apply in_or_app. right. simpl.
        apply in_or_app. auto.
      * destruct J as [<-|J]; [left; left; auto|right; auto].
Qed.

Lemma complete_red leaves o fin : complete_order leaves o fin -> red leaves o [fin].
Proof.
  intros [(o' & l & E) N P X]. apply complete_red_gen; auto.
  rewrite P. subst o. rewrite removelast_results, results_app. simpl. rewrite app_assoc. reflexivity.
Qed.

Lemma complete_iff leaves o fin :
  complete_order leaves o fin <-> o <> [] /\ NoDup (leaves ++ results o) /\ red leaves o [fin].
Proof.
  split.
  - intros C. split; [|split].
    + destruct (co_last C) as (o' & l & ->). destruct o'; discriminate.
    + apply C.
    + apply complete_red; auto.
  - intros (A & B & C). apply red_complete; auto.
Qed.
