(** Generic helpers used by the model: boolean equality classes, Python-like
    names, association lists (Python dictionaries in insertion order), results
    with exceptions.  Nothing here is specific to acqdp except [name]. *)
From Coq Require Export String Ascii Arith ZArith Lia Bool List Permutation.
From Coq Require Import Eqdep_dec.
Export ListNotations.
Set Implicit Arguments.
Open Scope nat_scope.
Open Scope list_scope.

(** * Boolean equality *)

Class Eqb (A : Type) := {
  eqb : A -> A -> bool;
  eqb_spec : forall x y, reflect (x = y) (eqb x y)
}.

Arguments eqb {A Eqb} x y : simpl never.

Lemma eqb_refl {A} `{Eqb A} (x : A) : eqb x x = true.
Proof. destruct (eqb_spec x x); congruence. Qed.

Lemma eqb_eq {A} `{Eqb A} (x y : A) : eqb x y = true <-> x = y.
Proof. destruct (eqb_spec x y); split; congruence. Qed.

Lemma eqb_true {A} `{Eqb A} (x y : A) : eqb x y = true -> x = y.
Proof. apply eqb_eq. Qed.

Lemma eqb_false {A} `{Eqb A} (x y : A) : eqb x y = false -> x <> y.
Proof. destruct (eqb_spec x y); congruence. Qed.

Lemma eqb_neq {A} `{Eqb A} (x y : A) : eqb x y = false <-> x <> y.
Proof. destruct (eqb_spec x y); split; congruence. Qed.

Lemma eqb_sym {A} `{Eqb A} (x y : A) : eqb x y = eqb y x.
Proof. destruct (eqb_spec x y), (eqb_spec y x); congruence. Qed.

Lemma eq_dec_of_eqb {A} `{Eqb A} (x y : A) : {x = y} + {x <> y}.
Proof. destruct (eqb_spec x y); auto. Qed.

#[export] Instance Eqb_nat : Eqb nat := {| eqb := Nat.eqb; eqb_spec := Nat.eqb_spec |}.
#[export] Instance Eqb_Z : Eqb Z := {| eqb := Z.eqb; eqb_spec := Z.eqb_spec |}.
#[export] Instance Eqb_string : Eqb string :=
  {| eqb := String.eqb; eqb_spec := String.eqb_spec |}.
#[export] Instance Eqb_bool : Eqb bool := {| eqb := Bool.eqb; eqb_spec := Bool.eqb_spec |}.

Section EqbList.
  Context {A : Type} `{Eqb A}.
  Fixpoint list_eqb (l1 l2 : list A) : bool :=
    match l1, l2 with
    | [], [] => true
    | x :: r1, y :: r2 => eqb x y && list_eqb r1 r2
    | _, _ => false
    end.
  Lemma list_eqb_spec l1 l2 : reflect (l1 = l2) (list_eqb l1 l2).
  Proof.
    revert l2; induction l1 as [|x r IH]; intros [|y s]; simpl; try (constructor; congruence).
    destruct (eqb_spec x y) as [->|N]; simpl; [|constructor; congruence].
    destruct (IH s) as [->|N]; constructor; congruence.
  Qed.
End EqbList.
#[export] Instance Eqb_list {A} `{Eqb A} : Eqb (list A) :=
  {| eqb := list_eqb; eqb_spec := list_eqb_spec |}.

Definition prod_eqb {A B} `{Eqb A} `{Eqb B} (p q : A * B) : bool :=
  eqb (fst p) (fst q) && eqb (snd p) (snd q).
Lemma prod_eqb_spec {A B} `{Eqb A} `{Eqb B} (p q : A * B) : reflect (p = q) (prod_eqb p q).
Proof.
  destruct p as [a b], q as [c d]; unfold prod_eqb; simpl.
  destruct (eqb_spec a c) as [->|N]; simpl; [|constructor; congruence].
  destruct (eqb_spec b d) as [->|N]; constructor; congruence.
Qed.
#[export] Instance Eqb_prod {A B} `{Eqb A} `{Eqb B} : Eqb (A * B) :=
  {| eqb := prod_eqb; eqb_spec := prod_eqb_spec |}.

Definition option_eqb {A} `{Eqb A} (p q : option A) : bool :=
  match p, q with Some a, Some b => eqb a b | None, None => true | _, _ => false end.
Lemma option_eqb_spec {A} `{Eqb A} (p q : option A) : reflect (p = q) (option_eqb p q).
Proof.
  destruct p as [a|], q as [b|]; simpl; try (constructor; congruence).
  destruct (eqb_spec a b) as [->|N]; constructor; congruence.
Qed.
#[export] Instance Eqb_option {A} `{Eqb A} : Eqb (option A) :=
  {| eqb := option_eqb; eqb_spec := option_eqb_spec |}.

(** * Python hashable names: integers, strings, (nested) tuples and None
    ([NN], the default of several optional arguments).
    Simplification: floats, booleans and user-defined hashables are not
    modelled as names. *)

Inductive name : Type :=
| NN
| NI (z : Z)
| NS (s : string)
| NT (l : list name).

Section NameInd.
  Variable P : name -> Prop.
  Hypothesis HN : P NN.
  Hypothesis HI : forall z, P (NI z).
  Hypothesis HS : forall s, P (NS s).
  Hypothesis HT : forall l, Forall P l -> P (NT l).
  Fixpoint name_ind' (n : name) : P n :=
    match n with
    | NN => HN
    | NI z => HI z
    | NS s => HS s
    | NT l => HT ((fix go l : Forall P l :=
                     match l with
                     | [] => Forall_nil P
                     | x :: r => Forall_cons x (name_ind' x) (go r)
                     end) l)
    end.
End NameInd.

Fixpoint name_eqb (a b : name) : bool :=
  match a, b with
  | NN, NN => true
  | NI x, NI y => Z.eqb x y
  | NS x, NS y => String.eqb x y
  | NT l, NT m =>
      (fix go l m := match l, m with
                     | [], [] => true
                     | x :: r, y :: s => name_eqb x y && go r s
                     | _, _ => false
                     end) l m
  | _, _ => false
  end.

Lemma name_eqb_iff a : forall b, name_eqb a b = true <-> a = b.
Proof.
  induction a as [|z|s|l IH] using name_ind'; intros [|z'|s'|m]; simpl;
    try (split; congruence).
  - rewrite Z.eqb_eq; split; congruence.
  - rewrite String.eqb_eq; split; congruence.
  - enough (R : (fix go l m := match l, m with
                     | [], [] => true
                     | x :: r, y :: s => name_eqb x y && go r s
                     | _, _ => false
                     end) l m = true <-> l = m) by (rewrite R; split; congruence).
    revert m; induction IH as [|x r Hx _ IHr]; intros [|y t]; try (split; congruence).
    rewrite andb_true_iff, Hx, IHr. split; [intros [-> ->]; auto|intros E; inversion E; auto].
Qed.
Lemma name_eqb_spec a b : reflect (a = b) (name_eqb a b).
Proof. apply iff_reflect; symmetry; apply name_eqb_iff. Qed.
#[export] Instance Eqb_name : Eqb name := {| eqb := name_eqb; eqb_spec := name_eqb_spec |}.

Coercion NS : string >-> name.

(** * Membership and duplicates *)

Section Mem.
  Context {A : Type} `{Eqb A}.
  Definition mem (x : A) (l : list A) : bool := existsb (eqb x) l.
  Lemma mem_In x l : mem x l = true <-> In x l.
  Proof.
    unfold mem; rewrite existsb_exists; split.
    - intros [y [Hy E]]; apply eqb_true in E; subst; auto.
    - intros Hx; exists x; split; auto; apply eqb_refl.
  Qed.
  Lemma mem_false x l : mem x l = false <-> ~ In x l.
  Proof. rewrite <- mem_In; destruct (mem x l); split; congruence. Qed.
  Lemma mem_spec x l : reflect (In x l) (mem x l).
  Proof. apply iff_reflect; symmetry; apply mem_In. Qed.

  (** keep the first occurrence of each element *)
  Fixpoint dedup (l : list A) : list A :=
    match l with
    | [] => []
    | x :: r => x :: filter (fun y => negb (eqb x y)) (dedup r)
    end.
  Lemma dedup_In x l : In x (dedup l) <-> In x l.
  Proof.
    induction l as [|a r IH]; simpl; [tauto|].
    rewrite filter_In, IH. destruct (eqb_spec a x); simpl; intuition congruence.
  Qed.
  Lemma NoDup_filter' (f : A -> bool) l : NoDup l -> NoDup (filter f l).
  Proof.
    induction 1 as [|a r N D IH]; simpl; [constructor|].
    destruct (f a); auto. constructor; auto. rewrite filter_In; tauto.
  Qed.
  Lemma dedup_NoDup l : NoDup (dedup l).
  Proof.
    induction l as [|a r IH]; simpl; constructor.
    - rewrite filter_In, eqb_refl; simpl; intros [_ E]; discriminate.
    - apply NoDup_filter'; auto.
  Qed.
  Fixpoint nodupb (l : list A) : bool :=
    match l with [] => true | x :: r => negb (mem x r) && nodupb r end.
  Lemma nodupb_NoDup l : nodupb l = true <-> NoDup l.
  Proof.
    induction l as [|a r IH]; simpl; split; intros Hl; try constructor; auto.
    - apply andb_true_iff in Hl as [H1 H2]. apply negb_true_iff, mem_false in H1; auto.
    - apply IH. apply andb_true_iff in Hl as [H1 H2]; auto.
    - inversion Hl; subst. apply andb_true_iff; split; [apply negb_true_iff, mem_false|apply IH]; auto.
  Qed.

  (** index of the first occurrence; [length l] when absent *)
  Fixpoint index_of (x : A) (l : list A) : nat :=
    match l with [] => 0 | y :: r => if eqb x y then 0 else S (index_of x r) end.
  Lemma index_of_nth x l : In x l -> nth_error l (index_of x l) = Some x.
  Proof.
    induction l as [|y r IH]; simpl; [tauto|].
    destruct (eqb_spec x y) as [->|N]; simpl; auto. intros [E|I]; [congruence|auto].
  Qed.
  Lemma index_of_lt x l : In x l -> index_of x l < length l.
  Proof.
    intros I; apply nth_error_Some. rewrite index_of_nth; congruence.
  Qed.
  Lemma index_of_inj x y l : In x l -> In y l -> index_of x l = index_of y l -> x = y.
  Proof.
    intros Hx Hy E. apply index_of_nth in Hx, Hy. congruence.
  Qed.
  Lemma nth_error_NoDup_index l i x : NoDup l -> nth_error l i = Some x -> index_of x l = i.
  Proof.
    revert i; induction l as [|y r IH]; intros i ND E.
    - destruct i; discriminate.
    - inversion ND; subst. destruct i; simpl in *.
      + inversion E; subst. rewrite eqb_refl; auto.
      + destruct (eqb_spec x y) as [->|N]; [exfalso; apply nth_error_In in E; auto|].
        f_equal; auto.
  Qed.
End Mem.

(** * Association lists: Python dictionaries in insertion order *)

Section Assoc.
  Context {A B : Type} `{Eqb A}.
  Definition keys (l : list (A * B)) : list A := map fst l.
  Fixpoint get (k : A) (l : list (A * B)) : option B :=
    match l with [] => None | (a, b) :: r => if eqb k a then Some b else get k r end.
  (** d[k] = v : overwrite in place, or append *)
  Fixpoint set (k : A) (v : B) (l : list (A * B)) : list (A * B) :=
    match l with
    | [] => [(k, v)]
    | (a, b) :: r => if eqb k a then (a, v) :: r else (a, b) :: set k v r
    end.
  Definition del (k : A) (l : list (A * B)) : list (A * B) :=
    filter (fun p => negb (eqb k (fst p))) l.
  Definition has (k : A) (l : list (A * B)) : bool := mem k (keys l).

  Lemma get_In k v l : get k l = Some v -> In (k, v) l.
  Proof.
    induction l as [|[a b] r IH]; simpl; [discriminate|].
    destruct (eqb_spec k a) as [->|N]; [intros E; inversion E; auto|auto].
  Qed.
  Lemma get_None k l : get k l = None <-> ~ In k (keys l).
  Proof.
    induction l as [|[a b] r IH]; simpl; [tauto|].
    destruct (eqb_spec k a) as [->|N].
    - split; [discriminate|tauto].
    - rewrite IH; split; [intros F [E|E]; congruence|tauto].
  Qed.
  Lemma get_Some_key k v l : get k l = Some v -> In k (keys l).
  Proof. intros E. apply get_In in E. apply in_map_iff. exists (k, v); auto. Qed.
  Lemma In_get k v l : NoDup (keys l) -> In (k, v) l -> get k l = Some v.
  Proof.
    induction l as [|[a b] r IH]; simpl; [tauto|].
    intros ND [E|I].
    - inversion E; subst. rewrite eqb_refl; auto.
    - inversion ND; subst. destruct (eqb_spec k a) as [->|N]; auto.
      exfalso. apply H2. apply in_map_iff. exists (a, v); auto.
  Qed.
  Lemma key_get k l : In k (keys l) -> exists v, get k l = Some v.
  Proof.
    intros I. destruct (get k l) eqn:E; eauto. apply get_None in E; tauto.
  Qed.
  Lemma get_set_eq k v l : get k (set k v l) = Some v.
  Proof.
    induction l as [|[a b] r IH]; simpl.
    - rewrite eqb_refl; auto.
    - destruct (eqb_spec k a) as [->|N]; simpl; [rewrite eqb_refl; auto|].
      destruct (eqb_spec k a); [congruence|auto].
  Qed.
  Lemma get_set_neq k k' v l : k <> k' -> get k' (set k v l) = get k' l.
  Proof.
    intros N; induction l as [|[a b] r IH]; simpl.
    - destruct (eqb_spec k' k); congruence.
    - destruct (eqb_spec k a) as [->|N']; simpl.
      + destruct (eqb_spec k' a); [congruence|auto].
      + destruct (eqb_spec k' a); auto.
  Qed.
  Lemma get_set k k' v l : get k' (set k v l) = if eqb k' k then Some v else get k' l.
  Proof.
    destruct (eqb_spec k' k) as [->|N]; [apply get_set_eq|apply get_set_neq; congruence].
  Qed.
  Lemma keys_set k v l : keys (set k v l) = if has k l then keys l else keys l ++ [k].
  Proof.
    unfold has. induction l as [|[a b] r IH]; simpl; auto.
    destruct (eqb_spec k a) as [->|N]; simpl; auto.
    unfold mem in *; rewrite IH. destruct (existsb (eqb k) (keys r)); auto.
  Qed.
  Lemma keys_set_In k v l x : In x (keys (set k v l)) <-> x = k \/ In x (keys l).
  Proof.
    rewrite keys_set; unfold has. destruct (mem_spec k (keys l)).
    - split; [auto|]. intros [->|]; auto.
    - rewrite in_app_iff; simpl; intuition congruence.
  Qed.
  Lemma keys_set_NoDup k v l : NoDup (keys l) -> NoDup (keys (set k v l)).
  Proof.
    intros ND. rewrite keys_set; unfold has. destruct (mem_spec k (keys l)); auto.
    apply Permutation_NoDup with (k :: keys l); [|constructor; auto].
    apply Permutation_cons_append.
  Qed.
  Lemma get_del_eq k l : get k (del k l) = None.
  Proof.
    apply get_None. unfold keys, del. rewrite in_map_iff. intros [[a b] [E I]].
    apply filter_In in I as [_ I]. simpl in *; subst. rewrite eqb_refl in I; discriminate.
  Qed.
  Lemma get_del_neq k k' l : k <> k' -> get k' (del k l) = get k' l.
  Proof.
    intros N. induction l as [|[a b] r IH]; simpl; auto.
    destruct (eqb_spec k a) as [->|N']; simpl.
    - destruct (eqb_spec k' a); [congruence|auto].
    - destruct (eqb_spec k' a); auto.
  Qed.
  Lemma keys_del k l : keys (del k l) = filter (fun x => negb (eqb k x)) (keys l).
  Proof.
    unfold keys, del. induction l as [|[a b] r IH]; simpl; auto.
    destruct (eqb k a); simpl; rewrite IH; auto.
  Qed.
  Lemma keys_del_In k l x : In x (keys (del k l)) <-> In x (keys l) /\ x <> k.
  Proof.
    rewrite keys_del, filter_In, negb_true_iff, eqb_neq. intuition.
  Qed.
  Lemma keys_del_NoDup k l : NoDup (keys l) -> NoDup (keys (del k l)).
  Proof. intros; rewrite keys_del; apply NoDup_filter'; auto. Qed.
  Lemma has_In k l : has k l = true <-> In k (keys l).
  Proof. apply mem_In. Qed.
End Assoc.

Lemma keys_app {A B} (l m : list (A * B)) : keys (l ++ m) = keys l ++ keys m.
Proof. apply map_app. Qed.
Lemma NoDup_snoc {A} (l : list A) x : NoDup l -> ~ In x l -> NoDup (l ++ [x]).
Proof.
  intros ND N. apply Permutation_NoDup with (x :: l); [apply Permutation_cons_append|].
  constructor; auto.
Qed.

Lemma get_map {A B C} `{Eqb A} (f : B -> C) k (l : list (A * B)) :
  get k (map (fun p => (fst p, f (snd p))) l) = option_map f (get k l).
Proof.
  induction l as [|[a b] r IH]; simpl; auto. destruct (eqb k a); auto.
Qed.

Lemma keys_map {A B C} (f : B -> C) (l : list (A * B)) :
  keys (map (fun p => (fst p, f (snd p))) l) = keys l.
Proof. unfold keys; rewrite map_map; simpl; auto. Qed.

(** * Results with Python exceptions *)

Inductive exn : Type :=
| ValueError | KeyError | IndexError | TypeError | AttributeError
| AssertionError | RuntimeError | NetworkXError | OutOfFuel.

Definition exn_eqb (a b : exn) : bool :=
  match a, b with
  | ValueError, ValueError | KeyError, KeyError | IndexError, IndexError
  | TypeError, TypeError | AttributeError, AttributeError
  | AssertionError, AssertionError | RuntimeError, RuntimeError
  | NetworkXError, NetworkXError | OutOfFuel, OutOfFuel => true
  | _, _ => false
  end.

Inductive res (A : Type) : Type :=
| Ok (a : A)
| Err (e : exn).
Arguments Ok {A} _.
Arguments Err {A} _.

Definition bind {A B} (m : res A) (f : A -> res B) : res B :=
  match m with Ok a => f a | Err e => Err e end.
Notation "'do' x <- m ; f" := (bind m (fun x => f))
  (at level 200, x pattern, m at level 100, f at level 200, right associativity).

Definition of_option {A} (e : exn) (o : option A) : res A :=
  match o with Some a => Ok a | None => Err e end.

Fixpoint mapM {A B} (f : A -> res B) (l : list A) : res (list B) :=
  match l with
  | [] => Ok []
  | x :: r => do y <- f x; do ys <- mapM f r; Ok (y :: ys)
  end.

(** enumerate *)
Definition enum {A} (l : list A) : list (nat * A) := combine (seq 0 (length l)) l.

(** Python list item assignment l[i] = x (no-op out of range; callers check) *)
Fixpoint set_nth {A} (i : nat) (x : A) (l : list A) : list A :=
  match l, i with
  | [], _ => []
  | _ :: r, 0 => x :: r
  | y :: r, S j => y :: set_nth j x r
  end.
Definition del_nth {A} (i : nat) (l : list A) : list A := firstn i l ++ skipn (S i) l.
Definition ins_nth {A} (i : nat) (x : A) (l : list A) : list A := firstn i l ++ x :: skipn i l.

Lemma set_nth_length {A} i (x : A) l : length (set_nth i x l) = length l.
Proof. revert i; induction l as [|y r IH]; intros [|i]; simpl; auto. Qed.

(** * Duplicate-freeness of concatenations *)
Lemma NoDup_app_iff {A} (l m : list A) :
  NoDup (l ++ m) <-> NoDup l /\ NoDup m /\ (forall x, In x l -> ~ In x m).
Proof.
  induction l as [|a r IH]; simpl.
  - split; [intros; repeat split; auto; constructor|tauto].
  - split.
    + inversion 1 as [|? ? N ND]; subst. rewrite in_app_iff in N. apply IH in ND as (H1 & H2 & H3).
      repeat split; auto.
      * constructor; auto.
      * intros x [->|I]; auto.
    + intros (H1 & H2 & H3). inversion H1; subst. constructor.
      * rewrite in_app_iff. intros [I|I]; auto. apply (H3 a); auto.
      * apply IH; repeat split; auto.
Qed.
Lemma NoDup_app_remove_r {A} (l m : list A) : NoDup (l ++ m) -> NoDup l.
Proof. rewrite NoDup_app_iff; tauto. Qed.
Lemma NoDup_app_remove_l {A} (l m : list A) : NoDup (l ++ m) -> NoDup m.
Proof. rewrite NoDup_app_iff; tauto. Qed.
