(** Python's sorted() on names does not depend on the order of the input when the names are
    pairwise different and either all comparable or distinguished by str(). *)
From Verif Require Import Base ModelTN ModelContract ContractExec.
From Coq Require Import Sorting.Sorted.
Set Implicit Arguments.
Open Scope nat_scope.

(** ** strings *)
Lemma ascii_cmp_lt a b c :
  Ascii.compare a b = Lt -> Ascii.compare b c = Lt -> Ascii.compare a c = Lt.
Proof. unfold Ascii.compare. rewrite !N.compare_lt_iff. apply N.lt_trans. Qed.
Lemma ascii_cmp_refl a : Ascii.compare a a = Eq.
Proof. unfold Ascii.compare. apply N.compare_refl. Qed.
Lemma str_cmp_refl s : String.compare s s = Eq.
Proof. induction s; simpl; auto. rewrite ascii_cmp_refl; auto. Qed.
Lemma str_cmp_lt a b c : String.compare a b = Lt -> String.compare b c = Lt -> String.compare a c = Lt.
Proof.
  revert b c; induction a as [|x a IH]; intros [|y b] [|z c]; simpl; try congruence.
  destruct (Ascii.compare x y) eqn:E1; destruct (Ascii.compare y z) eqn:E2; try congruence; intros H1 H2.
  - apply Ascii.compare_eq_iff in E1, E2; subst. rewrite ascii_cmp_refl. eauto.
  - apply Ascii.compare_eq_iff in E1; subst. rewrite E2; auto.
  - apply Ascii.compare_eq_iff in E2; subst. rewrite E1; auto.
  - rewrite (ascii_cmp_lt _ _ _ E1 E2); auto.
Qed.
Lemma str_ltb_irrefl s : String.ltb s s = false.
Proof. unfold String.ltb. rewrite str_cmp_refl; auto. Qed.
Lemma str_ltb_trans a b c : String.ltb a b = true -> String.ltb b c = true -> String.ltb a c = true.
Proof.
  unfold String.ltb. destruct (String.compare a b) eqn:E1; try discriminate.
  destruct (String.compare b c) eqn:E2; try discriminate. rewrite (str_cmp_lt _ _ _ E1 E2); auto.
Qed.
Lemma str_ltb_total a b : a <> b -> String.ltb a b = false -> String.ltb b a = true.
Proof.
  unfold String.ltb. rewrite (String.compare_antisym b a). destruct (String.compare a b) eqn:E; simpl; auto.
  apply String.compare_eq_iff in E. congruence.
Qed.

(** ** names *)
Fixpoint lex_lt (l m : list name) : res bool :=
  match l, m with
  | [], [] => Ok false
  | [], _ :: _ => Ok true
  | _ :: _, [] => Ok false
  | x :: r, y :: q => if eqb x y then lex_lt r q else name_lt x y
  end.
Lemma name_lt_NT l m : name_lt (NT l) (NT m) = lex_lt l m.
Proof. reflexivity. Qed.

Lemma name_lt_irrefl x : name_lt x x <> Ok true.
Proof.
  destruct x as [|z|s|l]; [discriminate| | |].
  - simpl. rewrite Z.ltb_irrefl. discriminate.
  - simpl. rewrite str_ltb_irrefl. discriminate.
  - rewrite name_lt_NT. induction l as [|y r IH]; simpl; [discriminate|]. rewrite eqb_refl. auto.
Qed.
Lemma name_lt_trans x : forall y z, name_lt x y = Ok true -> name_lt y z = Ok true -> name_lt x z = Ok true.
Proof.
  induction x as [|a|s|l IH] using name_ind'; intros y z H1 H2.
  - discriminate.
  - destruct y; try discriminate. destruct z; try discriminate. simpl in *. f_equal.
    inversion H1 as [Q1]. inversion H2 as [Q2]. rewrite Q1. apply Z.ltb_lt in Q1, Q2. apply Z.ltb_lt. lia.
  - destruct y; try discriminate. destruct z; try discriminate. simpl in *. f_equal.
    inversion H1 as [Q1]. inversion H2 as [Q2]. rewrite Q1. apply str_ltb_trans with s0; auto.
  - destruct y as [| | |m]; try discriminate. destruct z as [| | |k]; try discriminate.
    rewrite name_lt_NT in *. revert m k H1 H2.
    induction IH as [|x r Hx _ IHr]; intros [|y m] [|z k]; simpl; try congruence.
    destruct (eqb_spec x y) as [<-|N1].
    + destruct (eqb_spec x z) as [<-|N2]; eauto.
    + intros H1. destruct (eqb_spec y z) as [<-|N2].
      * destruct (eqb_spec x y); [congruence|auto].
      * intros H2. destruct (eqb_spec x z) as [<-|N3]; eauto.
        exfalso. apply (name_lt_irrefl x). apply (Hx y x); auto.
Qed.
Lemma name_lt_flip x : forall y b, name_lt x y = Ok b -> x <> y -> name_lt y x = Ok (negb b).
Proof.
  induction x as [|a|s|l IH] using name_ind'; intros [|c|t|m] b H1 N; try discriminate.
  - simpl in *. inversion H1; subst. f_equal.
    destruct (Z.ltb_spec c a), (Z.ltb_spec a c); simpl; try lia; auto. assert (a = c) by lia. congruence.
  - simpl in *. inversion H1; subst. f_equal. destruct (String.ltb s t) eqn:E; simpl.
    + destruct (String.ltb t s) eqn:E'; auto. rewrite <- (str_ltb_irrefl s). symmetry. apply str_ltb_trans with t; auto.
    + apply str_ltb_total; auto. congruence.
  - rewrite name_lt_NT in *. assert (N' : l <> m) by congruence. clear N. revert m b H1 N'.
    induction IH as [|x r Hx _ IHr]; intros [|y m] b; simpl; intros H1 N; try congruence;
      try (inversion H1; subst; reflexivity).
    rewrite (eqb_sym y x). destruct (eqb_spec x y) as [<-|N1]; auto. apply IHr; auto. congruence.
Qed.

(** ** insertion sort by a strict order that may raise *)
Section SortLaws.
  Variable lt : name -> name -> res bool.
  Variable D : name -> Prop.
  Hypothesis irr : forall x, D x -> lt x x <> Ok true.
  Hypothesis tr : forall x y z, D x -> D y -> D z -> lt x y = Ok true -> lt y z = Ok true -> lt x z = Ok true.
  Hypothesis fl : forall x y b, D x -> D y -> lt x y = Ok b -> x <> y -> lt y x = Ok (negb b).
  Definition below (x y : name) : Prop := lt x y = Ok true.

  Lemma sort_ins_sorted x l r :
    D x -> Forall D l -> ~ In x l -> StronglySorted below l -> sort_ins lt x l = Ok r -> StronglySorted below r.
  Proof.
    revert r; induction l as [|y q IH]; intros r Dx Dl N SS E; simpl in E.
    - inversion E; subst. constructor; constructor.
    - inversion Dl as [|? ? Dy Dq]; subst. inversion SS as [|? ? Sq Fq]; subst.
      destruct (lt x y) as [[]|] eqn:L; simpl in E; try discriminate.
      + inversion E; subst. constructor; auto. constructor; auto.
        rewrite Forall_forall in *. intros z I. apply tr with y; auto. apply Fq; auto.
      + destruct (sort_ins lt x q) as [w|] eqn:Eq; simpl in E; inversion E; subst.
        assert (Sw : StronglySorted below w) by (apply IH; auto; intros I; apply N; simpl; auto).
        constructor; auto. assert (P := sort_ins_perm _ _ _ Eq).
        eapply Permutation_Forall; [exact P|]. constructor; auto.
        unfold below. replace true with (negb false) by auto. apply fl; auto. intros ->; apply N; simpl; auto.
  Qed.
  Lemma sort_by_sorted l acc r :
    Forall D l -> Forall D acc -> NoDup (l ++ acc) -> StronglySorted below acc ->
    sort_by lt l acc = Ok r -> StronglySorted below r.
  Proof.
    revert acc r; induction l as [|x q IH]; intros acc r Dl Da ND SS E; simpl in E; [inversion E; subst; auto|].
    destruct (sort_ins lt x acc) as [w|] eqn:Ew; simpl in E; [|discriminate].
    simpl in ND. inversion ND as [|? ? N ND']; subst. inversion Dl as [|? ? Dx Dq]; subst.
    assert (P := sort_ins_perm _ _ _ Ew).
    apply (IH w r); auto.
    - eapply Permutation_Forall; [exact P|]. constructor; auto.
    - eapply Permutation_NoDup; [apply Permutation_app_head; exact P|].
      eapply Permutation_NoDup; [apply Permutation_middle|]. simpl. auto.
    - apply (sort_ins_sorted Dx Da) with (2 := SS) (3 := Ew). intros I; apply N, in_app_iff; auto.
  Qed.
  Lemma sorted_unique l m :
    Forall D l -> StronglySorted below l -> StronglySorted below m -> Permutation l m -> l = m.
  Proof.
    revert m; induction l as [|x l IH]; intros m Dl Sl Sm P.
    - apply Permutation_nil in P; auto.
    - destruct m as [|y m]; [apply Permutation_sym, Permutation_nil in P; discriminate|].
      inversion Dl as [|? ? Dx Dq]; subst. inversion Sl as [|? ? Sl' Fl]; subst. inversion Sm as [|? ? Sm' Fm]; subst.
      assert (Dm : Forall D (y :: m)) by (eapply Permutation_Forall; [exact P|auto]).
      inversion Dm as [|? ? Dy Dm']; subst.
      assert (x = y).
      { assert (Iy : In y (x :: l)) by (eapply Permutation_in; [apply Permutation_sym; eauto|simpl; auto]).
        assert (Ix : In x (y :: m)) by (eapply Permutation_in; [eauto|simpl; auto]).
        destruct Iy as [|Iy]; auto. destruct Ix as [|Ix]; auto.
        rewrite Forall_forall in *. exfalso. apply (irr Dx). apply tr with y; auto; [apply Fl|apply Fm]; auto. }
      subst. f_equal. apply IH; auto. apply Permutation_cons_inv in P; auto.
  Qed.
  Lemma sort_ins_total x l :
    (forall y, In y l -> exists b, lt x y = Ok b) -> exists r, sort_ins lt x l = Ok r.
  Proof.
    induction l as [|y q IH]; intros H; simpl; eauto.
    destruct (H y (or_introl eq_refl)) as [b ->]. simpl. destruct b; eauto.
    destruct IH as [r ->]; [intros; apply H; simpl; auto|]. simpl; eauto.
  Qed.
  Lemma sort_by_total l acc :
    (forall x y, In x (l ++ acc) -> In y (l ++ acc) -> x <> y -> exists b, lt x y = Ok b) -> NoDup (l ++ acc) ->
    exists r, sort_by lt l acc = Ok r.
  Proof.
    revert acc; induction l as [|x q IH]; intros acc H ND; simpl; eauto.
    simpl in ND. inversion ND as [|? ? N ND']; subst.
    destruct (@sort_ins_total x acc) as [w E].
    { intros y I. apply H; simpl; auto; [right; apply in_app_iff; auto|]. intros ->. apply N, in_app_iff; auto. }
    rewrite E. simpl. assert (P := sort_ins_perm _ _ _ E).
    assert (Pq : Permutation (x :: q ++ acc) (q ++ w)).
    { transitivity (q ++ x :: acc); [apply Permutation_middle|apply Permutation_app_head; auto]. }
    apply IH.
    - intros a b Ia Ib. apply H; eapply Permutation_in; try (apply Permutation_sym; exact Pq); auto.
    - eapply Permutation_NoDup; [exact Pq|]. constructor; auto.
  Qed.
  Lemma sorted_comparable l x y :
    Forall D l -> StronglySorted below l -> In x l -> In y l -> x <> y -> exists b, lt x y = Ok b.
  Proof.
    intros Dl; revert x y; induction l as [|a l IH]; intros x y SS Ix Iy N; [destruct Ix|].
    inversion Dl as [|? ? Da Dl']; subst. inversion SS as [|? ? Sl Fl]; subst. rewrite Forall_forall in *.
    destruct Ix as [<-|Ix], Iy as [<-|Iy]; [congruence| | |apply (IH Dl'); auto].
    - exists true. apply Fl; auto.
    - exists false. change false with (negb true). apply fl; auto. apply Fl; auto.
  Qed.
End SortLaws.

(** all names of [l] compare with Python's [<] *)
Definition comparable (l : list name) : Prop :=
  forall x y, In x l -> In y l -> x <> y -> exists b, name_lt x y = Ok b.
(** str() tells the names of [l] apart *)
Definition str_distinct (l : list name) : Prop :=
  forall x y, In x l -> In y l -> name_str x = name_str y -> x = y.

Lemma Forall_T (l : list name) : Forall (fun _ => True) l.
Proof. apply Forall_forall; auto. Qed.

Theorem py_sorted_perm_eq l m :
  NoDup l -> Permutation l m -> comparable l \/ str_distinct l -> py_sorted l = py_sorted m.
Proof.
  intros ND P C. assert (NDm : NoDup m) by (eapply Permutation_NoDup; eauto).
  assert (Sorted1 : forall k r, NoDup k -> sort_by name_lt k [] = Ok r ->
    Permutation k r /\ StronglySorted (below name_lt) r).
  { intros k r NDk E. split.
    - apply sort_by_perm in E. rewrite app_nil_r in E; auto.
    - eapply (@sort_by_sorted name_lt (fun _ => True)) with (l := k); eauto using Forall_T, name_lt_irrefl, name_lt_trans, name_lt_flip.
      + rewrite app_nil_r; auto.
      + constructor. }
  assert (Cmp : forall k r k', NoDup k -> NoDup k' -> Permutation k k' -> sort_by name_lt k [] = Ok r ->
    exists r', sort_by name_lt k' [] = Ok r').
  { intros k r k' NDk NDk' Pk E. destruct (Sorted1 k r NDk E) as [Pr SS].
    apply sort_by_total; rewrite app_nil_r; auto. intros x y Ix Iy N.
    eapply (@sorted_comparable name_lt (fun _ => True)) with (l := r);
      eauto using Forall_T, name_lt_flip.
    - eapply Permutation_in; [exact Pr|]. eapply Permutation_in; [apply Permutation_sym; exact Pk|auto].
    - eapply Permutation_in; [exact Pr|]. eapply Permutation_in; [apply Permutation_sym; exact Pk|auto]. }
  unfold py_sorted. destruct (sort_by name_lt l []) as [r|] eqn:E1.
  - destruct (Cmp l r m ND NDm P E1) as [r' E2]. rewrite E2.
    destruct (Sorted1 _ _ ND E1) as [P1 S1]. destruct (Sorted1 _ _ NDm E2) as [P2 S2].
    apply (@sorted_unique name_lt (fun _ => True)); auto using Forall_T, name_lt_irrefl.
    + intros; eapply name_lt_trans; eauto.
    + rewrite <- P1, P; auto.
  - destruct (sort_by name_lt m []) as [r'|] eqn:E2.
    { destruct (Cmp m r' l NDm ND (Permutation_sym P) E2) as [q Q]. congruence. }
    assert (SD : str_distinct l).
    { destruct C as [C|C]; auto. destruct (@sort_by_total name_lt l []) as [q Q]; rewrite ?app_nil_r; auto. congruence. }
    set (slt := fun a b => Ok (String.ltb (name_str a) (name_str b))).
    destruct (@sort_by_total slt l []) as [r1 F1]; rewrite ?app_nil_r; auto; [unfold slt; eauto|].
    destruct (@sort_by_total slt m []) as [r2 F2]; rewrite ?app_nil_r; auto; [unfold slt; eauto|].
    rewrite F1, F2.
    assert (irr : forall x, In x l -> slt x x <> Ok true) by (unfold slt; intros; rewrite str_ltb_irrefl; discriminate).
    assert (tr : forall x y z, In x l -> In y l -> In z l -> slt x y = Ok true -> slt y z = Ok true -> slt x z = Ok true).
    { unfold slt. intros x y z _ _ _ H1 H2. inversion H1 as [Q1]. inversion H2 as [Q2]. f_equal. rewrite Q1. eapply str_ltb_trans; eauto. }
    assert (fl : forall x y b, In x l -> In y l -> slt x y = Ok b -> x <> y -> slt y x = Ok (negb b)).
    { unfold slt. intros x y b Ix Iy H1 N. inversion H1 as [Q1]. f_equal.
      assert (Ns : name_str x <> name_str y) by (intros Q; apply N, SD; auto).
      destruct (String.ltb (name_str x) (name_str y)) eqn:L; simpl.
      - destruct (String.ltb (name_str y) (name_str x)) eqn:L'; auto.
        rewrite <- (str_ltb_irrefl (name_str x)). symmetry. eapply str_ltb_trans; eauto.
      - apply str_ltb_total; auto. }
    assert (Dl : Forall (fun x => In x l) l) by (apply Forall_forall; auto).
    assert (Dm : Forall (fun x => In x l) m) by (eapply Permutation_Forall; [exact P|auto]).
    assert (P1 := sort_by_perm _ _ _ F1). assert (P2 := sort_by_perm _ _ _ F2).
    rewrite app_nil_r in P1, P2.
    apply (@sorted_unique slt (fun x => In x l)); auto.
    + eapply Permutation_Forall; [exact P1|auto].
    + eapply (@sort_by_sorted slt (fun x => In x l)) with (l := l) (acc := []); eauto; try constructor.
      rewrite app_nil_r; auto.
    + eapply (@sort_by_sorted slt (fun x => In x l)) with (l := m) (acc := []); eauto; try constructor.
      rewrite app_nil_r; auto.
    + rewrite <- P1, P; auto.
Qed.
