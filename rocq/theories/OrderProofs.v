(** * Proofs about counters, order resolution and the order finders *)
From Coq Require Import List Arith ZArith String Lia Bool Permutation.
From Verif Require Import Base OrderSpec ModelTN ModelContract ModelOrder NameOrder.
Import ListNotations.
Set Implicit Arguments.
Open Scope nat_scope.

(** ** Lists *)

Lemma ins_key_perm {A} (key : A -> Z) x l : Permutation (ins_key key x l) (x :: l).
Proof.
  induction l as [|y r IH]; simpl; auto. destruct (Z.ltb (key x) (key y)); auto.
  rewrite IH. apply perm_swap.
Qed.
Lemma sort_key_perm {A} (key : A -> Z) l : Permutation (sort_key key l) l.
Proof.
  unfold sort_key. cut (forall acc, Permutation (fold_left (fun acc x => ins_key key x acc) l acc) (l ++ acc)).
  { intros H. rewrite H, app_nil_r. auto. }
  induction l as [|x r IH]; intros acc; simpl; auto. rewrite IH, ins_key_perm.
  symmetry. apply Permutation_middle.
Qed.

Lemma del_nth_perm {A} (l : list A) i x : nth_error l i = Some x -> Permutation l (x :: del_nth i l).
Proof.
  unfold del_nth. revert i; induction l as [|y l IH]; intros [|i] E; simpl in E; try discriminate.
  - inversion E. auto.
  - change (skipn (S (S i)) (y :: l)) with (skipn (S i) l). cbn [firstn app].
    rewrite (IH _ E) at 1. apply perm_swap.
Qed.
Lemma del_nth_length {A} (l : list A) i : i < List.length l -> List.length (del_nth i l) = List.length l - 1.
Proof.
  intros H. unfold del_nth. rewrite app_length, firstn_length, skipn_length. lia.
Qed.
Lemma nth_del_lt {A} (l : list A) i j : i < j -> nth_error (del_nth j l) i = nth_error l i.
Proof.
  intros H. unfold del_nth. destruct (Nat.lt_ge_cases j (List.length l)) as [L|L].
  - rewrite nth_error_app1 by (rewrite firstn_length; lia). clear L. revert i j H.
    induction l as [|x r IH]; intros i j H; destruct j; try lia; simpl; destruct i; auto. apply IH. lia.
  - rewrite firstn_all2 by lia. rewrite skipn_all2 by lia. rewrite app_nil_r. auto.
Qed.
Lemma nth_some {A} (l : list A) i : i < List.length l -> exists x, nth_error l i = Some x.
Proof.
  intros H. destruct (nth_error l i) eqn:E; eauto. apply nth_error_None in E. lia.
Qed.

Lemma pop_two (lhs : list name) i j : i < List.length lhs -> j < List.length lhs -> i <> j ->
  exists x y p q, nth_error lhs i = Some x /\ nth_error lhs j = Some y /\
    pop_nth (Nat.max i j) lhs = Ok p /\ pop_nth (Nat.min i j) (snd p) = Ok q /\
    Permutation lhs (x :: y :: snd q) /\ List.length (snd q) = List.length lhs - 2.
Proof.
  intros Hi Hj N. destruct (nth_some _ Hi) as [x Ex], (nth_some _ Hj) as [y Ey]. exists x, y.
  assert (K : forall a b u v, a < b -> b < List.length lhs -> nth_error lhs a = Some u -> nth_error lhs b = Some v ->
    nth_error (del_nth b lhs) a = Some u /\ Permutation lhs (u :: v :: del_nth a (del_nth b lhs)) /\
    List.length (del_nth a (del_nth b lhs)) = List.length lhs - 2).
  { intros a b u v L Lb Eu Ev. assert (E : nth_error (del_nth b lhs) a = Some u) by (rewrite nth_del_lt; auto).
    split; auto. split.
    - rewrite perm_swap. rewrite <- (del_nth_perm _ _ E). apply del_nth_perm; auto.
    - rewrite !del_nth_length; try lia. rewrite del_nth_length; lia. }
  destruct (Nat.lt_total i j) as [L|[L|L]]; [|lia|].
  - destruct (K i j x y L Hj Ex Ey) as (E & P & Ln).
    exists (y, del_nth j lhs), (x, del_nth i (del_nth j lhs)).
    unfold pop_nth. rewrite Nat.max_r, Nat.min_l by lia. rewrite Ey. cbn [snd]. rewrite E. auto 10.
  - destruct (K j i y x L Hi Ey Ex) as (E & P & Ln).
    exists (x, del_nth i lhs), (y, del_nth j (del_nth i lhs)).
    unfold pop_nth. rewrite Nat.max_l, Nat.min_r by lia. rewrite Ex. cbn [snd]. rewrite E.
    repeat split; auto. eapply perm_trans; [apply P|apply perm_swap].
Qed.

Lemma set_last_ok o l w z : set_last (o ++ [(l, w)]) z = Ok (o ++ [(l, z)]).
Proof. unfold set_last. rewrite rev_app_distr. simpl. rewrite rev_involutive. auto. Qed.

(** ** Fresh names *)

(** names ('#', m) with lo < m <= hi, all different *)
Definition fresh_in (lo hi : Z) (l : list name) : Prop :=
  NoDup l /\ forall x, In x l -> exists m, x = hname m /\ (lo < m <= hi)%Z.

Lemma hname_inj a b : hname a = hname b -> a = b.
Proof. unfold hname. congruence. Qed.
Lemma hash_hname m : hash <> hname m.
Proof. discriminate. Qed.
Lemma fresh_nil lo hi : fresh_in lo hi [].
Proof. split; [constructor|intros x []]. Qed.
Lemma fresh_app lo mid mid' hi a b : (lo <= mid)%Z -> (mid <= mid')%Z -> (mid' <= hi)%Z ->
  fresh_in lo mid a -> fresh_in mid' hi b -> fresh_in lo hi (a ++ b).
Proof.
  intros L1 L2 L3 [Na Fa] [Nb Fb]. split.
  - apply NoDup_app_iff. split; auto. split; auto. intros x Ia Ib.
    destruct (Fa _ Ia) as (m & -> & H), (Fb _ Ib) as (m' & E & H'). apply hname_inj in E. lia.
  - intros x I. apply in_app_or in I. destruct I as [I|I];
      [destruct (Fa _ I) as (m & -> & H)|destruct (Fb _ I) as (m & -> & H)]; exists m; split; auto; lia.
Qed.
Lemma fresh_wide lo lo' hi hi' a : (lo' <= lo)%Z -> (hi <= hi')%Z -> fresh_in lo hi a -> fresh_in lo' hi' a.
Proof.
  intros L1 L2 [N F]. split; auto. intros x I. destruct (F _ I) as (m & -> & H). exists m. split; auto. lia.
Qed.
Lemma fresh_one k : fresh_in k (k + 1) [hname (k + 1)].
Proof.
  split; [repeat constructor; auto|]. intros x [<-|[]]. exists (k + 1)%Z. split; auto. lia.
Qed.

Lemma draws_fresh n : forall k, fresh_in k (k + Z.of_nat n) (draws k n).
Proof.
  induction n as [|n IH]; intros k; [apply fresh_nil|].
  cbn [draws counter_cnt fst snd]. change (hname (k + 1) :: draws (k + 1) n) with ([hname (k + 1)] ++ draws (k + 1) n).
  eapply fresh_app with (mid := (k + 1)%Z) (mid' := (k + 1)%Z); try lia; [apply fresh_one|].
  eapply fresh_wide; [| |apply IH]; lia.
Qed.
Lemma draws_length n : forall k, List.length (draws k n) = n.
Proof. induction n; intros; simpl; auto. Qed.

(** a name that the counter can read: ('#', v) only with an integer v *)
Definition readable (x : name) : Prop := forall v, x = NT [NS "#"%string; v] -> exists z, v = NI z.

Lemma see_readable x : readable x -> forall k, exists k', counter_see k x = Ok k' /\ (k <= k')%Z /\
  (forall z, x = hname z -> (z <= k')%Z) /\ (k' = k \/ x = hname k').
Proof.
  intros R k. unfold counter_see. destruct x as [| | |[|y [|v [|]]]];
    try (exists k; try destruct y; repeat split; auto; try lia; discriminate).
  destruct y as [| |h|]; try (exists k; repeat split; auto; try lia; discriminate).
  destruct (String.eqb_spec h "#") as [->|N].
  - destruct (R v eq_refl) as [z ->]. exists (Z.max k z). repeat split; try lia.
    + intros z' E. apply hname_inj in E. lia.
    + destruct (Z.max_spec k z) as [[_ ->]|[_ ->]]; auto.
  - exists k. repeat split; auto; try lia. intros z E. unfold hname in E. congruence.
Qed.
Lemma see_ok x k k' : counter_see k x = Ok k' -> readable x.
Proof.
  unfold counter_see. intros E v ->. simpl in E. destruct v; try discriminate. eauto.
Qed.
Lemma names_readable l : Forall readable l -> forall k, exists k', counter_names k l = Ok k' /\ (k <= k')%Z /\
  (forall z, In (hname z) l -> (z <= k')%Z) /\ (k' = k \/ In (hname k') l).
Proof.
  induction 1 as [|x l R F IH]; intros k; simpl.
  - exists k. repeat split; auto; try lia; try tauto.
  - destruct (see_readable R k) as (k1 & -> & L1 & H1 & A1). cbn [bind].
    destruct (IH k1) as (k2 & -> & L2 & H2 & A2). exists k2. repeat split; try lia; auto.
    + intros z [E|I]; auto. apply H1 in E. lia.
    + destruct A2 as [->|A2]; auto. destruct A1 as [->|A1]; auto.
Qed.
Lemma names_ok l : forall k k', counter_names k l = Ok k' -> Forall readable l.
Proof.
  induction l as [|x l IH]; intros k k' E; [constructor|]. simpl in E.
  destruct (counter_see k x) as [k1|] eqn:E1; [|discriminate]. constructor; eauto using see_ok.
Qed.
Lemma steps_readable o : Forall readable (operands o) -> forall k, exists k', counter_steps k o = Ok k' /\ (k <= k')%Z /\
  (forall z, In (hname z) (operands o) -> (z <= k')%Z) /\ (k' = k \/ In (hname k') (operands o)).
Proof.
  induction o as [|[l z] r IH]; intros F k; simpl.
  - exists k. repeat split; auto; try lia; try tauto.
  - unfold operands in F; simpl in F. apply Forall_app in F. destruct F as [F1 F2].
    destruct (names_readable F1 k) as (k1 & -> & L1 & H1 & A1). cbn [bind].
    destruct (IH F2 k1) as (k2 & -> & L2 & H2 & A2). exists k2. unfold operands in *; simpl. repeat split; try lia; auto.
    + intros w I. apply in_app_or in I. destruct I as [I|I]; auto. apply H1 in I. lia.
    + rewrite in_app_iff. destruct A2 as [->|A2]; auto. destruct A1 as [->|A1]; auto.
Qed.
Lemma steps_ok o : forall k k', counter_steps k o = Ok k' -> Forall readable (operands o).
Proof.
  induction o as [|[l z] r IH]; intros k k' E; [constructor|]. simpl in E.
  destruct (counter_names k l) as [k1|] eqn:E1; [|discriminate]. unfold operands; simpl. apply Forall_app.
  split; [eapply names_ok; eauto|eapply IH; eauto].
Qed.

Lemma counter_new_ok o k : counter_new o = Ok k ->
  (0 <= k)%Z /\ (forall z, In (hname z) (operands o) -> (z <= k)%Z).
Proof.
  unfold counter_new. intros E. destruct (steps_readable _ (steps_ok _ _ E) 0) as (k' & E' & L & H & _).
  rewrite E in E'. inversion E'; subst. auto.
Qed.
Lemma counter_copy_ok k : (0 <= k)%Z -> counter_copy k = Ok k.
Proof.
  intros H. unfold counter_copy, counter_new, counter_steps, counter_names, counter_see, hname; simpl.
  destruct k; auto. lia.
Qed.

(** ** Paths *)

(** a path over [n] operands: every step takes one or two different existing positions, and one operand
    is left at the end *)
Fixpoint valid_opath (n : nat) (p : opath) : Prop :=
  match p with
  | [] => n = 1
  | [i] :: r => i < n /\ valid_opath n r
  | [i; j] :: r => i < n /\ j < n /\ i <> j /\ valid_opath (n - 1) r
  | _ :: _ => False
  end.
(** ... taking two operands in every step *)
Definition pair_path (p : opath) : Prop := Forall (fun i => List.length i = 2) p.

Lemma paired_ok path : forall lhs rhs k, valid_opath (List.length lhs) path -> path <> [] ->
  exists o l w k', paired lhs rhs path k = Ok (o ++ [(l, w)], k') /\ (k <= k')%Z /\
    fresh_in k k' (results o) /\ (forall z, red lhs (o ++ [(l, z)]) [z]) /\
    (forall x, In x (operands (o ++ [(l, w)])) -> In x lhs \/ In x (results o)) /\
    (pair_path path -> pairwise (o ++ [(l, w)])).
Proof.
  induction path as [|st r IH]; intros lhs rhs k V N; [congruence|].
  destruct st as [|i [|j [|]]]; simpl in V; try tauto.
  - (* one operand *)
    destruct V as [Hi V]. destruct (nth_some _ Hi) as [x Ex]. pose proof (del_nth_perm _ _ Ex) as P.
    cbn [paired]. unfold pop_nth. rewrite Ex. cbn [bind fst snd].
    destruct r as [|s r].
    + simpl in V. exists [], [x], rhs, k. split; [reflexivity|]. split; [lia|]. split; [apply fresh_nil|]. split; [|split].
      * intros z. simpl. exists []. split; auto.
        assert (L : List.length (del_nth i lhs) = 0) by (rewrite del_nth_length; lia).
        destruct (del_nth i lhs); [|discriminate]. auto.
      * intros y Iy. left. unfold operands in Iy; simpl in Iy. destruct Iy as [<-|[]].
        eapply nth_error_In; eauto.
      * intros H. inversion H; subst. discriminate.
    + assert (P2 : Permutation lhs (del_nth i lhs ++ [x])).
      { rewrite P at 1. apply Permutation_cons_append. }
      destruct (IH (del_nth i lhs ++ [x]) rhs k) as (o & l & w & k' & E & L & F & R & Sub & Pw).
      { rewrite <- (Permutation_length P2). auto. }
      { discriminate. }
      exists o, l, w, k'. rewrite E. split; auto. split; auto. split; auto. split; [|split].
      * intros z. eapply red_perm_l; [symmetry; apply P2|]. auto.
      * intros y Iy. destruct (Sub _ Iy) as [I|I]; auto. left.
        eapply Permutation_in; [symmetry; apply P2|]; auto.
      * intros H. apply Pw. inversion H; auto.
  - (* two operands *)
    destruct V as (Hi & Hj & Nij & V).
    destruct (pop_two _ Hi Hj Nij) as (x & y & p & q & Ex & Ey & Ep & Eq & P & Lq).
    cbn [paired]. rewrite Ex, Ey, Ep. cbn [bind fst snd]. rewrite Eq. cbn [bind fst snd counter_cnt].
    destruct r as [|s r].
    + simpl in V. cbn [paired bind fst snd]. exists [], [x; y], (hname (k + 1)), (k + 1)%Z.
      split; [reflexivity|]. split; [lia|]. split; [apply fresh_nil|]. split; [|split].
      * intros z. simpl. exists []. split; auto. destruct (snd q); [auto|simpl in Lq; lia].
      * intros u Iu. left. unfold operands in Iu; simpl in Iu.
        eapply Permutation_in; [symmetry; apply P|]. simpl in *. tauto.
      * intros _. repeat constructor.
    + destruct (IH (snd q ++ [hname (k + 1)]) rhs (k + 1)%Z) as (o & l & w & k' & E & L & F & R & Sub & Pw).
      { rewrite app_length. simpl. replace (List.length (snd q) + 1) with (List.length lhs - 1) by lia. auto. }
      { discriminate. }
      rewrite E. cbn [bind fst snd].
      exists (([x; y], hname (k + 1)) :: o), l, w, k'. split; [auto|]. split; [lia|]. split; [|split; [|split]].
      * simpl. change (hname (k + 1) :: results o) with ([hname (k + 1)] ++ results o).
        eapply fresh_app with (mid := (k + 1)%Z) (mid' := (k + 1)%Z); try lia; auto. apply fresh_one.
      * intros z. simpl. exists (snd q). split; auto. eapply red_perm_l; [|apply R].
        symmetry. apply Permutation_cons_append.
      * intros u Iu. unfold operands in Iu; simpl in Iu. destruct Iu as [<-|[<-|Iu]].
        -- left. eapply nth_error_In; eauto.
        -- left. eapply nth_error_In; eauto.
        -- destruct (Sub u Iu) as [I|I]; [|right; right; auto]. apply in_app_or in I. destruct I as [I|I].
           ++ left. eapply Permutation_in; [symmetry; apply P|]. simpl; auto.
           ++ right. simpl in I. destruct I as [<-|[]]. left; auto.
      * intros H. inversion H; subst. constructor; auto. apply Pw; auto.
Qed.

Lemma paired_order_ok s path k : valid_opath (List.length (fst s)) path -> path <> [] ->
  exists o l k', path_to_paired_order s path k = Ok (o ++ [(l, snd s)], k') /\ (k <= k')%Z /\
    fresh_in k k' (results o) /\ (forall z, red (fst s) (o ++ [(l, z)]) [z]) /\
    (forall x, In x (operands (o ++ [(l, snd s)])) -> In x (fst s) \/ In x (results o)) /\
    (pair_path path -> pairwise (o ++ [(l, snd s)])).
Proof.
  intros V N. destruct (@paired_ok path (fst s) (snd s) k V N) as (o & l & w & k' & E & L & F & R & Sub & Pw).
  exists o, l, k'. unfold path_to_paired_order. rewrite E. cbn [bind fst snd]. rewrite set_last_ok. cbn [bind].
  split; auto. split; auto. split; auto. split; auto. split.
  - intros x I. apply Sub. rewrite operands_app in *. auto.
  - intros H. specialize (Pw H). apply Forall_app in Pw. apply Forall_app. destruct Pw as [A B]. split; auto.
    inversion B; subst. repeat constructor; auto.
Qed.

(** ** Resolving a whole order *)

Lemma resolve_ok sp o : forall p q k, red p o q ->
  (forall s, In s o -> valid_opath (List.length (fst s)) (sp s) /\ sp s <> []) ->
  exists o' new, resolve sp o k = Ok o' /\ red p o' q /\ Permutation (results o') (results o ++ new) /\
    NoDup new /\ (forall x, In x new -> exists m, x = hname m /\ (k < m)%Z) /\
    (forall x, In x (operands o') -> In x (operands o) \/ In x new) /\
    (o <> [] -> o' <> []) /\
    ((forall s, In s o -> pair_path (sp s)) -> pairwise o').
Proof.
  induction o as [|[l z] r IH]; intros p q k R V.
  - exists [], []. simpl. repeat split; auto; try constructor; try (intros x []); try tauto.
  - destruct R as (rest & P & R). destruct (V (l, z) (or_introl eq_refl)) as [V1 N1].
    destruct (@paired_order_ok (l, z) (sp (l, z)) k V1 N1) as (o1 & l1 & k1 & E1 & L1 & F1 & R1 & S1 & Pw1).
    cbn [fst snd] in *.
    destruct (IH _ _ k1 R (fun s I => V s (or_intror I))) as (o2 & new & E2 & R2 & P2 & N2 & H2 & S2 & Ne2 & Pw2).
    exists ((o1 ++ [(l1, z)]) ++ o2), (results o1 ++ new). cbn [resolve]. rewrite E1. cbn [bind fst snd].
    rewrite E2. cbn [bind]. split; auto. split; [|split; [|split; [|split; [|split; [|split]]]]].
    + apply red_app with (z :: rest); auto. eapply red_perm_l; [symmetry; apply P|].
      apply (red_frame _ _ [z] rest). apply R1.
    + rewrite !results_app, P2. simpl. rewrite <- app_assoc. simpl.
      symmetry. transitivity (z :: results o1 ++ results r ++ new).
      * constructor. rewrite !app_assoc. apply Permutation_app_tail. apply Permutation_app_comm.
      * apply Permutation_middle.
    + apply NoDup_app_iff. destruct F1 as [F1 F1']. split; auto. split; auto. intros x I1 I2.
      destruct (F1' _ I1) as (m & -> & ?), (H2 _ I2) as (m' & E & ?). apply hname_inj in E. lia.
    + intros x I. apply in_app_or in I. destruct I as [I|I].
      * destruct F1 as [_ F1]. destruct (F1 _ I) as (m & -> & ?). exists m. split; auto. lia.
      * destruct (H2 _ I) as (m & -> & ?). exists m. split; auto. lia.
    + intros x I. rewrite operands_app in I. apply in_app_or in I. unfold operands at 1; simpl.
      rewrite in_app_iff, in_app_iff. destruct I as [I|I].
      * destruct (S1 _ I); auto.
      * destruct (S2 _ I); auto.
    + intros _. destruct o1; discriminate.
    + intros H. apply Forall_app. split; [apply Pw1; apply H; left; auto|apply Pw2; intros; apply H; right; auto].
Qed.

Lemma upto_hash_id o : ~ In hash (results o) -> upto_hash o = o.
Proof.
  induction o as [|[l z] r IH]; simpl; auto. intros N. destruct (eqb_spec z hash); [subst; tauto|].
  rewrite IH; auto.
Qed.
Lemma upto_hash_last o l : ~ In hash (results o) -> upto_hash (o ++ [(l, hash)]) = o ++ [(l, hash)].
Proof.
  induction o as [|[m z] r IH]; intros N.
  - cbn [app upto_hash snd]. rewrite eqb_refl. auto.
  - cbn [app upto_hash snd]. destruct (eqb_spec z hash); [subst; simpl in N; tauto|].
    rewrite IH; auto. simpl in N. tauto.
Qed.

(** what a scheme built from a complete order is *)
Lemma scheme_ok sp leaves o : complete_order leaves o hash ->
  Forall readable (operands o) ->
  (forall s, In s o -> valid_opath (List.length (fst s)) (sp s) /\ sp s <> []) ->
  exists o', order_to_contraction_scheme sp o = Ok o' /\ complete_order leaves o' hash /\
    (forall m, In (hname m) (results o') -> In (hname m) (results o) \/
        (forall w, In (hname w) (operands o) -> (w < m)%Z) /\ (0 < m)%Z) /\
    Forall readable (operands o') /\
    ((forall s, In s o -> pair_path (sp s)) -> pairwise o').
Proof.
  intros C Rd V. pose proof (complete_red C) as R.
  destruct (co_last C) as (o0 & l0 & Eo). pose proof (co_names C) as Nd.
  assert (Nh : ~ In hash (results o0)).
  { rewrite Eo, results_app in Nd. simpl in Nd. rewrite app_assoc in Nd. apply NoDup_app_iff in Nd.
    destruct Nd as (_ & _ & D). intros I. apply (D hash); [apply in_or_app; auto|left; auto]. }
  unfold order_to_contraction_scheme.
  destruct (steps_readable _ Rd 0) as (k & Ek & L & H & A). unfold counter_new. rewrite Ek. cbn [bind].
  assert (Eu : upto_hash o = o) by (rewrite Eo; apply upto_hash_last; auto). rewrite Eu.
  destruct (@resolve_ok sp o leaves [hash] k R V) as (o' & new & E' & R' & P' & Nn & Hn & Sub & Ne & Pw).
  exists o'. split; auto.
  assert (New : forall x, In x new -> exists m, x = hname m /\ (forall w, In (hname w) (operands o) -> (w < m)%Z) /\ (0 < m)%Z).
  { intros x I. destruct (Hn _ I) as (m & -> & ?). exists m. split; auto. split; [|lia].
    intros w Iw. apply H in Iw. lia. }
  split; [|split; [|split]]; auto.
  - apply red_complete; auto.
    + apply Ne. rewrite Eo. destruct o0; discriminate.
    + eapply Permutation_NoDup; [apply Permutation_app_head; symmetry; apply P'|].
      rewrite app_assoc. apply NoDup_app_iff. split; auto. split; auto. intros x I In'.
      destruct (New _ In') as (m & -> & Hw & _).
      assert (Io : In (hname m) (operands o)); [|apply Hw in Io; lia].
      eapply Permutation_in; [symmetry; apply (co_once C)|]. rewrite Eo, removelast_results.
      rewrite Eo, results_app in I. rewrite !in_app_iff in *. simpl in I.
      destruct I as [I|[I|[I|[]]]]; auto. discriminate.
  - intros m I. eapply Permutation_in in I; [|apply P']. apply in_app_or in I. destruct I as [I|I]; auto.
    right. destruct (New _ I) as (m' & E & ?). apply hname_inj in E. subst. auto.
  - apply Forall_forall. intros x I. destruct (Sub _ I) as [J|J].
    + eapply Forall_forall in Rd; eauto.
    + destruct (New _ J) as (m & -> & _). intros v Ev. unfold hname in Ev. inversion Ev. eauto.
Qed.

(** ** The chain of the base order finder *)

Lemma chain_red l : forall k i, l <> [] ->
  exists o m, chain k i l = o ++ [(m, hname (i + Z.of_nat (List.length l) - 1))] /\
    (forall z, red (k :: l) (o ++ [(m, z)]) [z]) /\ pairwise (o ++ [(m, hash)]) /\
    fresh_in (i - 1) (i + Z.of_nat (List.length l) - 2) (results o).
Proof.
  induction l as [|x r IH]; intros k i N; [congruence|]. destruct r as [|y r].
  - exists [], [x; k]. cbn [chain List.length]. replace (i + Z.of_nat 1 - 1)%Z with i by lia.
    split; [auto|split; [|split]].
    + intros z. simpl. exists []. split; [apply perm_swap|auto].
    + repeat constructor.
    + apply fresh_nil.
  - destruct (IH (hname i) (i + 1)%Z) as (o & m & E & R & Pw & F); [discriminate|].
    exists (([x; k], hname i) :: o), m. cbn [chain] in *. rewrite E. split; [|split; [|split]].
    + simpl. f_equal. f_equal. f_equal. f_equal. f_equal. cbn [List.length] in *. lia.
    + intros z. simpl. exists (y :: r). split; [apply perm_swap|auto].
    + constructor; auto.
    + simpl. change (hname i :: results o) with ([hname i] ++ results o).
      assert (F1 : fresh_in (i - 1) i [hname i]).
      { pose proof (fresh_one (i - 1)) as F1. replace (i - 1 + 1)%Z with i in F1 by lia. auto. }
      eapply fresh_app with (mid := i) (mid' := i); try (cbn [List.length] in *; lia); auto.
      eapply fresh_wide; [| |apply F]; cbn [List.length] in *; lia.
Qed.

Lemma chain_complete l : 2 <= List.length l -> NoDup l -> ~ In hash l ->
  (forall i, (0 <= i)%Z -> (i + 2 < Z.of_nat (List.length l))%Z -> ~ In (hname i) l) ->
  exists o, chain_order l = Ok o /\ complete_order l o hash /\ pairwise o /\
    (forall x, In x (operands o) -> In x l \/ exists m, x = hname m).
Proof.
  intros L N Nh Nn. destruct l as [|x [|y r]]; simpl in L; try lia.
  destruct (@chain_red (y :: r) x 0) as (o & m & E & R & Pw & [F1 F2]); [discriminate|].
  exists (o ++ [(m, hash)]). unfold chain_order. rewrite E.
  assert (Es : set_last (o ++ [(m, hname (0 + Z.of_nat (List.length (y :: r)) - 1))]) hash = Ok (o ++ [(m, hash)]))
    by apply set_last_ok.
  assert (C : complete_order (x :: y :: r) (o ++ [(m, hash)]) hash).
  { apply red_complete; auto; [destruct o; discriminate|].
    rewrite results_app. simpl results. rewrite app_assoc. apply NoDup_app_iff.
    split; [|split].
    - apply NoDup_app_iff. split; auto. split; auto. intros w I1 I2. destruct (F2 _ I2) as (i & -> & Hi).
      apply (Nn i); auto; try lia. cbn [List.length] in *. lia.
    - repeat constructor; auto.
    - intros w I [<-|[]]. apply in_app_or in I. destruct I as [I|I]; auto.
      destruct (F2 _ I) as (i & E' & _). discriminate. }
  split; [|split; [auto|split; [auto|]]].
  - destruct o; auto.
  - intros w I. eapply Permutation_in in I; [|apply (co_once C)]. rewrite removelast_results in I.
    apply in_app_or in I. destruct I as [I|I]; auto. right. destruct (F2 _ I) as (i & -> & _). eauto.
Qed.

Lemma hname_readable m : readable (hname m).
Proof. intros v E. unfold hname in E. inversion E. eauto. Qed.

(** every 2-operand step is resolved to itself or swapped; more generally any pairing path *)
Definition good_paths (sp : ostep -> opath) : Prop :=
  forall s, fst s <> [] -> valid_opath (List.length (fst s)) (sp s) /\ sp s <> [] /\
                           (2 <= List.length (fst s) -> pair_path (sp s)).

Lemma pairwise_good sp o : good_paths sp -> pairwise o ->
  (forall s, In s o -> valid_opath (List.length (fst s)) (sp s) /\ sp s <> []) /\
  (forall s, In s o -> pair_path (sp s)).
Proof.
  intros G P. split; intros s I; unfold pairwise in P; rewrite Forall_forall in P; specialize (P s I);
    destruct (G s) as (A & B & C); auto; try (intros E; rewrite E in P; discriminate). apply C. lia.
Qed.

Lemma finder_complete arrange sp nodes :
  Permutation (arrange nodes) nodes -> good_paths sp ->
  2 <= List.length nodes -> NoDup nodes -> ~ In hash nodes -> Forall readable nodes ->
  (forall i, (0 <= i)%Z -> (i + 2 < Z.of_nat (List.length nodes))%Z -> ~ In (hname i) nodes) ->
  exists o, finder_with arrange sp nodes = Ok o /\ complete_order nodes o hash /\ pairwise o.
Proof.
  intros P G L N Nh Rd Nn. pose proof (Permutation_length P) as Lp.
  destruct (@chain_complete (arrange nodes)) as (o & E & C & Pw & Sub).
  { lia. } { eapply Permutation_NoDup; [symmetry; apply P|]; auto. }
  { intros I. apply Nh. eapply Permutation_in; eauto. }
  { intros i H1 H2 I. apply (Nn i); auto; [lia|]. eapply Permutation_in; eauto. }
  assert (C' : complete_order nodes o hash).
  { apply complete_iff in C. destruct C as (A & B & C). apply complete_iff. split; auto. split.
    - eapply Permutation_NoDup; [apply Permutation_app_tail; apply P|]; auto.
    - eapply red_perm_l; eauto. }
  destruct (pairwise_good G Pw) as [G1 G2].
  destruct (@scheme_ok sp nodes o C') as (o' & E' & Co & _ & _ & Pw'); auto.
  { apply Forall_forall. intros x I. destruct (Sub _ I) as [J|[m ->]]; [|apply hname_readable].
    eapply Permutation_in in J; [|apply P]. eapply Forall_forall in Rd; eauto. }
  exists o'. unfold finder_with. rewrite E. cbn [bind]. auto.
Qed.

Lemma oe_complete path sp nodes :
  valid_opath (List.length nodes) path -> pair_path path -> good_paths sp ->
  2 <= List.length nodes -> NoDup nodes -> ~ In hash nodes -> Forall readable nodes ->
  (forall i, (1 <= i)%Z -> ~ In (hname i) nodes) ->
  exists o, oe_finder path sp nodes = Ok o /\ complete_order nodes o hash /\ pairwise o.
Proof.
  intros V Pp G L N Nh Rd Nn.
  assert (Np : path <> []) by (intros ->; simpl in V; lia).
  destruct (@paired_order_ok (nodes, hash) path 0 V Np) as (o & l & k' & E & Lk & [F1 F2] & R & Sub & Pw).
  cbn [fst snd] in *.
  assert (C : complete_order nodes (o ++ [(l, hash)]) hash).
  { apply red_complete; auto; [destruct o; discriminate|]. rewrite results_app. simpl results. rewrite app_assoc.
    apply NoDup_app_iff. split; [|split].
    - apply NoDup_app_iff. split; auto. split; auto. intros w I1 I2. destruct (F2 _ I2) as (i & -> & Hi).
      apply (Nn i); auto; lia.
    - repeat constructor; auto.
    - intros w I [<-|[]]. apply in_app_or in I. destruct I as [I|I]; auto.
      destruct (F2 _ I) as (i & E' & _). discriminate. }
  destruct (pairwise_good G (Pw Pp)) as [G1 G2].
  destruct (@scheme_ok sp nodes _ C) as (o' & E' & Co & _ & _ & Pw'); auto.
  { apply Forall_forall. intros x I. destruct (Sub _ I) as [J|J].
    - eapply Forall_forall in Rd; eauto.
    - destruct (F2 _ J) as (m & -> & _). apply hname_readable. }
  exists o'. unfold oe_finder. rewrite (proj2 (Nat.ltb_lt 1 (List.length nodes))) by lia.
  rewrite E. cbn [bind fst snd]. auto.
Qed.
