(** * The dynamic programming optimiser: tables, connected parts, termination *)
From Coq Require Import List Arith ZArith NArith Lia Bool Permutation Sorted.
From Verif Require Import Base PathSpec ModelOrder OrderProofs ModelPath ModelOpt ModelDP PathProofs OptProofs OptProofs2 DPProofs.
Import ListNotations.
Set Implicit Arguments.
Open Scope nat_scope.

(** ** Auxiliary *)
Lemma mkset_asc l : StronglySorted lt (mkset l).
Proof. induction l; simpl; [constructor|]. apply sins_sorted. auto. Qed.
Lemma set_In_or {K V} `{Eqb K} (k : K) (v : V) l p : In p (set k v l) -> p = (k, v) \/ In p l.
Proof.
  induction l as [|[k' v'] r IH]; simpl; [intuition|]. destruct (eqb k k') eqn:E; simpl; [|intuition].
  destruct (eqb_spec k k') as [->|]; [intuition|discriminate].
Qed.
Lemma nth_set_nth {A} (d v : A) l : forall i j, nth j (set_nth i v l) d = if (j =? i) && (i <? length l) then v else nth j l d.
Proof.
  induction l as [|x r IH]; intros i j; simpl; [destruct i, j; simpl; auto; rewrite ?andb_false_r; auto|].
  destruct i, j; simpl; auto. rewrite IH. reflexivity.
Qed.
Lemma foldM_hit {A B} (f : B -> A -> res B) (P Q : B -> Prop) (hit : A -> Prop) l : forall b, P b ->
  (forall b x, In x l -> P b -> exists b', f b x = Ok b' /\ P b' /\ (Q b -> Q b') /\ (hit x -> Q b')) ->
  exists b', foldM f b l = Ok b' /\ P b' /\ (Q b -> Q b') /\ ((exists x, In x l /\ hit x) -> Q b').
Proof.
  induction l as [|x r IH]; intros b Hb H; simpl.
  - exists b. split; auto. split; auto. split; auto. intros [x [[] _]].
  - destruct (H b x) as (b1 & -> & H1 & H2 & H3); simpl; auto. cbn [bind].
    destruct (IH b1 H1) as (b2 & E & G1 & G2 & G3); [intros b2 y I; apply H; right; auto|].
    exists b2. split; auto. split; auto. split; auto. intros [y [[->|I] Hy]]; auto. apply G3. eauto.
Qed.
Lemma get_set_same {V} (k : nset) (v : V) l : get k (set k v l) = Some v.
Proof. apply get_set_eq. Qed.

(** the size of an index set *)
Definition prod_of (sizes : list (nat * Z)) (l : list nat) : Z :=
  fold_right Z.mul 1%Z (map (fun i => match get i sizes with Some z => z | None => 1%Z end) l).
Lemma size_prod sizes l : known sizes l -> size_by_dict l sizes = Ok (prod_of sizes l).
Proof. intros K. apply size_by_dict_spec. exact K. Qed.
Definition sizes_from (b : Z) (sizes : list (nat * Z)) (l : list nat) : Prop :=
  forall i, In i l -> exists z, get i sizes = Some z /\ (b <= z)%Z.
Lemma prod_pos sizes l : sizes_from 1 sizes l -> (1 <= prod_of sizes l)%Z.
Proof.
  unfold prod_of. induction l as [|i r IH]; intros H; simpl; [lia|]. destruct (H i (or_introl eq_refl)) as [z [-> Hz]].
  assert (1 <= fold_right Z.mul 1 (map (fun i => match get i sizes with Some z => z | None => 1 end) r))%Z by (apply IH; intros j Hj; apply H; now right).
  nia.
Qed.
Lemma prod_incl sizes a : forall b, NoDup a -> incl a b -> sizes_from 1 sizes b -> (prod_of sizes a <= prod_of sizes b)%Z.
Proof.
  induction a as [|i r IH]; intros b Na I Hb; [change (prod_of sizes []) with 1%Z; apply prod_pos; auto|].
  inversion Na; subst. assert (Hi : In i b) by (apply I; now left). apply in_split in Hi as [b1 [b2 ->]].
  assert (E : prod_of sizes (b1 ++ i :: b2) = prod_of sizes (i :: b1 ++ b2)).
  { unfold prod_of. rewrite !map_app. simpl. rewrite map_app. generalize (match get i sizes with Some z => z | None => 1%Z end). intros w.
    generalize (map (fun i => match get i sizes with Some z => z | None => 1%Z end) b1). intros l. induction l as [|x l IHl]; simpl; auto. rewrite IHl. ring. }
  rewrite E. assert (L : (prod_of sizes r <= prod_of sizes (b1 ++ b2))%Z).
  { apply IH; auto.
    - intros j Hj. assert (J : In j (b1 ++ i :: b2)) by (apply I; now right). rewrite in_app_iff in *. destruct J as [|[->|]]; auto. contradiction.
    - intros j Hj. apply Hb. rewrite in_app_iff in *. simpl. tauto. }
  destruct (Hb i) as [z [Ez Hz]]; [rewrite in_app_iff; simpl; auto|].
  unfold prod_of in *. simpl. rewrite Ez. nia.
Qed.
Lemma from_known b sizes l : sizes_from b sizes l -> known sizes l.
Proof. intros H x Hx. destruct (H x Hx) as [z [E _]]. eauto. Qed.

(** ** One subgraph *)
Section Graph.
  Variable sizes : list (nat * Z).
  Variable limit : option Z.
  Variable output : nset.
  Variable inputs : list nset.
  Variable exprs : list ptree.
  Variable all : list nat.
  Variable g : list nat.
  Hypothesis Kall : known sizes all.
  Hypothesis Iall : Forall (fun i => incl i all) inputs.
  Hypothesis Ng : NoDup g.
  Hypothesis Rg : Forall (fun j => j < length inputs) g.
  Hypothesis Le : length exprs = length inputs.
  Hypothesis Fe : Forall full exprs.

  Definition lv (j : nat) : list nat := leaves (nth j exprs (PLeaf 0)).
  Definition ix (j : nat) : nset := nth j inputs [].
  Definition entry_ok (n : nat) (p : nset * entry) : Prop :=
    let '(s, (i, _, t)) := p in
    StronglySorted lt s /\ length s = n /\ incl s g /\ incl i all /\ Permutation (leaves t) (flat_map lv s) /\ full t /\
    (forall x j k, In j s -> In x (ix j) -> In k g -> ~ In k s -> In x (ix k) -> In x i).
  Definition table_ok (x : table) : Prop :=
    length x = S (length g) /\ forall m, Forall (entry_ok m) (nth m x []).

  Lemma incl_known a : incl a all -> known sizes a.
  Proof. intros I x Hx. apply Kall. auto. Qed.
  Lemma asc_sub (s : list nat) : StronglySorted lt s -> NoDup s. Proof. apply asc_NoDup. Qed.

  (** the pair is considered, and its cost is below [b] *)
  Definition qualifies (same : bool) (b : Z) (p q : nset * entry) : Prop :=
    let '(s1, (i1, c1, _)) := p in
    let '(s2, (i2, c2, _)) := q in
    (forall x, In x s1 -> ~ In x s2) /\ (same = true -> N.ltb (bits s1) (bits s2) = true) /\
    (exists x, In x i1 /\ In x i2 /\ ~ In x output) /\ (c1 + c2 + prod_of sizes (sunion i1 i2) <= b)%Z.
  Definition has_below (s : nset) (b : Z) (xn : list (nset * entry)) : Prop :=
    exists i c t, get s xn = Some (i, c, t) /\ (c <= b)%Z.

  Lemma nonempty_false {A} (l : list A) : nonempty l = false -> l = [].
  Proof. destruct l; [auto|discriminate]. Qed.
  Lemma has_below_set s b xn s' v : has_below s b xn ->
    match get s' xn with None => True | Some (_, c, _) => (snd (fst v) <= c)%Z end -> has_below s b (set s' v xn).
  Proof.
    intros (i & c & t & E & L) H. unfold has_below. rewrite get_set. match goal with |- context [eqb ?a ?b] => destruct (eqb_spec a b) as [Es|Es] end.
    - rewrite <- Es in *. rewrite E in H. destruct v as [[i' c'] t']. simpl in H. do 3 eexists. split; [reflexivity|]. lia.
    - eauto.
  Qed.
  Lemma dp_pair_ok cap same xn a b n m s0 b0 :
    m <= n -> Forall (entry_ok n) xn -> entry_ok m a -> entry_ok (n - m) b ->
    exists xn', dp_pair sizes limit output inputs g cap same xn a b = Ok xn' /\ Forall (entry_ok n) xn' /\
      (has_below s0 b0 xn -> has_below s0 b0 xn') /\
      (limit = None -> (b0 <= cap)%Z -> qualifies same b0 a b -> s0 = sunion (fst a) (fst b) -> has_below s0 b0 xn').
  Proof.
    intros Hm Hx Ha Hb. destruct a as [s1 [[i1 c1] t1]], b as [s2 [[i2 c2] t2]]. unfold dp_pair. cbn [entry_ok] in Ha, Hb.
    destruct Ha as (S1 & L1 & I1 & A1 & P1 & F1 & K1). destruct Hb as (S2 & L2 & I2 & A2 & P2 & F2 & K2).
    destruct (nonempty (sinter s1 s2)) eqn:Ed.
    { exists xn. split; auto. split; auto. split; auto. intros _ _ (D & _) _. exfalso.
      destruct (sinter s1 s2) as [|x r] eqn:E; [discriminate|]. assert (Hin : In x (sinter s1 s2)) by (rewrite E; now left).
      apply sinter_In in Hin as [H1 H2]. apply (D x); auto. }
    assert (Dis : forall x, In x s1 -> ~ In x s2).
    { intros x H1 H2. apply nonempty_false in Ed. assert (In x (sinter s1 s2)) by (apply sinter_In; auto). rewrite Ed in H. destruct H. }
    destruct (same && negb (N.ltb (bits s1) (bits s2))) eqn:Eo.
    { exists xn. split; auto. split; auto. split; auto. intros _ _ (_ & O & _) _. exfalso.
      apply andb_true_iff in Eo as [E1 E2]. apply O in E1. rewrite E1 in E2. discriminate. }
    set (cut := sdiff (sinter i1 i2) output). destruct (negb (nonempty cut)) eqn:Ec.
    { exists xn. split; auto. split; auto. split; auto. intros _ _ (_ & _ & (x & X1 & X2 & X3) & _) _. exfalso.
      apply negb_true_iff, nonempty_false in Ec. assert (H : In x cut) by (apply sdiff_In; rewrite sinter_In; auto). rewrite Ec in H. destruct H. }
    assert (KU : incl (sunion i1 i2) all) by (intros x; rewrite sunion_In; intros [H|H]; auto).
    rewrite (size_prod (incl_known KU)). cbn [bind].
    destruct (Z.leb (c1 + c2 + prod_of sizes (sunion i1 i2)) cap) eqn:Ecap.
    2:{ exists xn. split; auto. split; auto. split; auto. intros _ Hc (_ & _ & _ & Q) _. exfalso. apply Z.leb_gt in Ecap. lia. }
    set (cost := (c1 + c2 + prod_of sizes (sunion i1 i2))%Z) in *. set (s := sunion s1 s2) in *.
    destruct (match get s xn with None => true | Some (_, c, _) => Z.ltb cost c end) eqn:Eb.
    2:{ exists xn. split; auto. split; auto. split; auto. intros _ Hc (_ & _ & _ & Q) Hs. cbn [fst] in Hs.
        rewrite Hs. fold s. unfold has_below. destruct (get s xn) as [[[i c] t]|]; [|discriminate]. do 3 eexists. split; [reflexivity|].
        apply Z.ltb_ge in Eb. fold cost in Q. lia. }
    set (r := filter (fun j => negb (mem j s)) g).
    assert (Fr : Forall (fun j => j < length inputs) r).
    { apply Forall_forall. intros j Hj. apply filter_In in Hj as [Hj _]. rewrite Forall_forall in Rg. auto. }
    destruct (mapM_at _ Fr) as (rs & -> & Prs). cbn [bind].
    set (i := sdiff (sunion i1 i2) (sdiff cut (mkset (concat rs)))).
    assert (KI : incl i all) by (intros x Hx0; apply sdiff_In in Hx0; apply KU; tauto).
    rewrite (size_prod (incl_known KI)). cbn [bind].
    assert (New : entry_ok n (s, (i, cost, PNode [t1; t2]))).
    { assert (Ps : Permutation s (s1 ++ s2)).
      { apply NoDup_Permutation; [apply mkset_NoDup|apply NoDup_app2; auto using asc_NoDup|]. intros x. unfold s. rewrite sunion_In, in_app_iff. reflexivity. }
      cbn [entry_ok]. split; [apply mkset_asc|]. split; [rewrite (Permutation_length Ps), app_length; lia|].
      split; [intros x; unfold s; rewrite sunion_In; intros [H|H]; auto|]. split; auto. split.
      { simpl. rewrite app_nil_r. rewrite P1, P2. rewrite <- flat_map_app. apply Permutation_flat_map. now apply Permutation_sym. }
      split; [simpl; repeat split; auto; discriminate|].
      intros x j k Hj Hxj Hk Nk Hxk. unfold i. apply sdiff_In. unfold s in Hj, Nk. rewrite sunion_In in Hj, Nk. split.
      - apply sunion_In. destruct Hj as [Hj|Hj]; [left; apply (K1 x j k)|right; apply (K2 x j k)]; auto.
      - intros G. apply sdiff_In in G as [_ G]. apply G. apply mkset_In. apply in_concat. exists (ix k). split; auto.
        apply (@picks_in_rev nset r inputs rs k); auto.
        + apply filter_In. split; auto. apply negb_true_iff. destruct (mem k s) eqn:M; auto. apply mem_In in M. unfold s in M. rewrite sunion_In in M. tauto.
        + unfold ix. apply nth_error_nth'. rewrite Forall_forall in Rg. auto. }
    destruct (match limit with None => true | Some l => Z.leb (prod_of sizes i) l end) eqn:El.
    - exists (set s (i, cost, PNode [t1; t2]) xn). split; auto. split; [|split].
      + apply Forall_forall. intros p Hp. apply set_In_or in Hp as [->|Hp]; auto. rewrite Forall_forall in Hx. auto.
      + intros H. apply has_below_set; auto. cbn [fst snd]. destruct (get s xn) as [[[? c] ?]|]; auto. apply Z.ltb_lt in Eb. lia.
      + intros _ _ (_ & _ & _ & Q) Hs. cbn [fst] in Hs. rewrite Hs. fold s. unfold has_below. rewrite get_set_same. do 3 eexists. split; [reflexivity|auto].
    - exists xn. split; auto. split; auto. split; auto. intros ->. discriminate.
  Qed.

  Definition hits (x : table) (n : nat) (cap : Z) (s0 : nset) (b0 : Z) : Prop :=
    limit = None /\ (b0 <= cap)%Z /\
    exists a, In a (nth 1 x []) /\ exists b, In b (nth (n - 1) x []) /\ qualifies (1 =? n - 1) b0 a b /\ s0 = sunion (fst a) (fst b).
  Lemma dp_level_ok cap x n s0 b0 : table_ok x -> 2 <= n <= length g ->
    exists x', dp_level sizes limit output inputs g cap x n = Ok x' /\ table_ok x' /\ (forall m, m <> n -> nth m x' [] = nth m x []) /\
      (hits x n cap s0 b0 -> has_below s0 b0 (nth n x' [])).
  Proof.
    intros [Lx Tx] Hn. unfold dp_level.
    edestruct (@foldM_hit nat (list (nset * entry))) with (l := seq 1 (n / 2)) (b := nth n x [])
      (P := fun xn => Forall (entry_ok n) xn) (Q := has_below s0 b0) (hit := fun m => m = 1 /\ hits x n cap s0 b0) as (xn & E & H1 & H2 & H3).
    3:{ rewrite E. cbn [bind]. exists (set_nth n xn x). split; [reflexivity|]. split; [split|split].
        - now rewrite set_nth_length.
        - intros m. rewrite nth_set_nth. destruct (m =? n) eqn:Em; simpl; auto. apply Nat.eqb_eq in Em. subst m. destruct (n <? length x); auto.
        - intros m Hm. rewrite nth_set_nth. apply Nat.eqb_neq in Hm. now rewrite Hm.
        - intros G. rewrite nth_set_nth, Nat.eqb_refl. replace (n <? length x) with true by (symmetry; apply Nat.ltb_lt; lia). simpl.
          apply H3. exists 1. split; auto. apply in_seq. pose proof (Nat.div_le_lower_bound n 2 1). lia. }
    { apply Tx. }
    intros xn m Hm Hxn. apply in_seq in Hm. assert (Hm2 : m <= n) by (pose proof (Nat.div_le_upper_bound n 2 n); lia).
    edestruct (@foldM_hit (nset * entry) (list (nset * entry))) with (l := nth m x []) (b := xn)
      (P := fun xn => Forall (entry_ok n) xn) (Q := has_below s0 b0)
      (hit := fun a => m = 1 /\ limit = None /\ (b0 <= cap)%Z /\ exists b, In b (nth (n - 1) x []) /\ qualifies (1 =? n - 1) b0 a b /\ s0 = sunion (fst a) (fst b))
      as (xn' & E & H1 & H2 & H3).
    3:{ exists xn'. split; [exact E|]. split; auto. split; auto. intros (-> & Hl & Hc & a & Ha & Hab). apply H3. exists a. split; auto. }
    { auto. }
    intros xn1 a Hin Hxn1.
    edestruct (@foldM_hit (nset * entry) (list (nset * entry))) with (l := nth (n - m) x []) (b := xn1)
      (P := fun xn => Forall (entry_ok n) xn) (Q := has_below s0 b0)
      (hit := fun b => limit = None /\ (b0 <= cap)%Z /\ qualifies (m =? n - m) b0 a b /\ s0 = sunion (fst a) (fst b)) as (xn2 & E2 & G1 & G2 & G3).
    3:{ exists xn2. split; [exact E2|]. split; auto. split; auto. intros (-> & Hl & Hc & b & Hb & Hab). apply G3. exists b. split; auto. }
    { auto. }
    intros xn3 b Hb Hxn3.
    destruct (@dp_pair_ok cap (m =? n - m) xn3 a b n m s0 b0) as (xn4 & E4 & J1 & J2 & J3); auto.
    { pose proof (Tx m) as T. rewrite Forall_forall in T. auto. }
    { pose proof (Tx (n - m)) as T. rewrite Forall_forall in T. auto. }
    exists xn4. split; auto. split; auto. split; auto. intros (Hl & Hc & Q & Es). auto.
  Qed.

  (** *** Whole rounds *)
  Definition base : list (nset * entry) := map (fun j => ([j], (ix j, 0%Z, nth j exprs (PLeaf 0)))) g.
  Definition wide : Z := prod_of sizes all.
  (** every tensor but the first shares a summation index with an earlier one *)
  Definition chained : Prop := forall a j b, g = a ++ j :: b -> a <> [] ->
    exists k x, In k a /\ In x (ix k) /\ In x (ix j) /\ ~ In x output.
  Definition easy (cap : Z) : Prop :=
    limit = None /\ sizes_from 1 sizes all /\ chained /\ (Z.of_nat (length g) * wide <= cap)%Z.
  Definition covered (x : table) (k : nat) : Prop :=
    has_below (mkset (firstn k g)) (Z.of_nat (k - 1) * wide)%Z (nth k x []).

  Lemma bits_one j : bits [j] = (2 ^ N.of_nat j)%N.
  Proof. unfold bits. cbn [fold_right]. rewrite N.lor_0_r, N.shiftl_mul_pow2. lia. Qed.
  Lemma bits_lt j k : j < k -> N.ltb (bits [j]) (bits [k]) = true.
  Proof. intros H. rewrite !bits_one. apply N.ltb_lt. apply N.pow_lt_mono_r; lia. Qed.
  Lemma wide_bound a : incl a all -> NoDup a -> sizes_from 1 sizes all -> (prod_of sizes a <= wide)%Z.
  Proof. intros. apply prod_incl; auto. Qed.
  Lemma ix_all j : incl (ix j) all.
  Proof.
    unfold ix. destruct (nth_in_or_default j inputs []) as [H| ->]; [|intros x []]. rewrite Forall_forall in Iall. auto.
  Qed.

  Lemma level_hits x n cap : table_ok x -> nth 1 x [] = base -> 2 <= n <= length g -> easy cap -> covered x (n - 1) ->
    hits x n cap (mkset (firstn n g)) (Z.of_nat (n - 1) * wide)%Z.
  Proof.
    intros [Lx Tx] Bx Hn (Hl & Hs & Hch & Hc) (i & c & t & E & Hb).
    assert (Hw : (1 <= wide)%Z) by (apply prod_pos; auto).
    split; auto. split; [nia|].
    destruct (nth_error g (n - 1)) as [j|] eqn:Ej; [|apply nth_error_None in Ej; lia].
    destruct (nth_error_split _ _ Ej) as (a & b & Eg & La).
    assert (Fa : firstn (n - 1) g = a) by (rewrite Eg, <- La, firstn_app, Nat.sub_diag, firstn_all; simpl; apply app_nil_r).
    assert (Fn : firstn n g = a ++ [j]).
    { replace n with (S (length a)) by lia. rewrite Eg. replace (S (length a)) with (length a + 1) by lia. rewrite firstn_app_2. reflexivity. }
    rewrite Fa in E. assert (a <> []) by (intros ->; simpl in La; lia).
    destruct (Hch a j b Eg H) as (k & x0 & Hk & Hx1 & Hx2 & Hx3).
    assert (Hj : ~ In j a). { rewrite Eg in Ng. apply NoDup_remove_2 in Ng. rewrite in_app_iff in Ng. tauto. }
    pose proof (get_In _ _ E) as Hin. pose proof (Tx (n - 1)) as T. rewrite Forall_forall in T. pose proof (T _ Hin) as (_ & _ & _ & Iall2 & _ & _ & Hcov).
    assert (Hxi : In x0 i).
    { apply (Hcov x0 k j); auto; [now apply mkset_In| rewrite Eg, in_app_iff; simpl; auto|]. now rewrite mkset_In. }
    assert (Hbase : In ([j], (ix j, 0%Z, nth j exprs (PLeaf 0))) (nth 1 x [])).
    { rewrite Bx. unfold base. apply (in_map (fun j => ([j], (ix j, 0%Z, nth j exprs (PLeaf 0))))). rewrite Eg, in_app_iff. simpl. auto. }
    assert (Hsum : forall u v, incl u all -> incl v all -> (prod_of sizes (sunion u v) <= wide)%Z).
    { intros u v Hu Hv. apply wide_bound; auto; [|apply mkset_NoDup]. intros y Hy. apply sunion_In in Hy as [|]; auto. }
    assert (Hset : forall u v, (forall y, In y u \/ In y v <-> In y (a ++ [j])) -> mkset (firstn n g) = sunion u v).
    { intros u v Huv. apply asc_ext; try apply mkset_asc. intros y. rewrite Fn, mkset_In, sunion_In. rewrite Huv. reflexivity. }
    destruct (Nat.eq_dec n 2) as [->|Hn2].
    - destruct a as [|k0 [|? ?]]; simpl in La; try lia. assert (k0 = k) by (destruct Hk as [|[]]; auto). subst k0.
      assert (Hjk : j <> k) by (intros ->; apply Hj; now left).
      destruct (Nat.lt_ge_cases j k) as [L|L].
      + exists ([j], (ix j, 0%Z, nth j exprs (PLeaf 0))). split; auto. exists (mkset [k], (i, c, t)). split; auto. split.
        * cbn [qualifies]. split; [intros y [<-|[]]; rewrite mkset_In; auto|]. split; [intros _; apply (bits_lt L)|]. split; [eauto|].
          pose proof (Hsum (ix j) i (ix_all j) Iall2). simpl Z.of_nat in *. lia.
        * apply Hset. intros y. cbn [fst]. rewrite mkset_In. simpl. tauto.
      + exists (mkset [k], (i, c, t)). split; auto. exists ([j], (ix j, 0%Z, nth j exprs (PLeaf 0))). split; auto. split.
        * cbn [qualifies]. split; [intros y Hy [<-|[]]; rewrite mkset_In in Hy; auto|]. split; [intros _; assert (k < j) by lia; apply (bits_lt H0)|]. split; [eauto|].
          pose proof (Hsum i (ix j) Iall2 (ix_all j)). simpl Z.of_nat in *. lia.
        * apply Hset. intros y. cbn [fst]. rewrite mkset_In. simpl. tauto.
    - exists ([j], (ix j, 0%Z, nth j exprs (PLeaf 0))). split; auto. exists (mkset a, (i, c, t)). split; auto. split.
      + cbn [qualifies]. split; [intros y [<-|[]]; rewrite mkset_In; auto|]. split; [|split; [eauto|]].
        * intros G. apply Nat.eqb_eq in G. lia.
        * pose proof (Hsum (ix j) i (ix_all j) Iall2). replace (Z.of_nat (n - 1)) with (Z.of_nat (n - 1 - 1) + 1)%Z by lia. lia.
      + apply Hset. intros y. cbn [fst]. rewrite mkset_In, in_app_iff. simpl. tauto.
  Qed.

  Lemma dp_levels_ok cap c : forall s x, 2 <= s -> s + c = S (length g) -> table_ok x -> nth 1 x [] = base ->
    (easy cap -> forall k, 1 <= k < s -> covered x k) ->
    exists x', foldM (dp_level sizes limit output inputs g cap) x (seq s c) = Ok x' /\ table_ok x' /\ nth 1 x' [] = base /\
      (easy cap -> forall k, 1 <= k < s + c -> covered x' k).
  Proof.
    induction c as [|c IH]; intros s x Hs Hl Tx Bx Cx; cbn [seq foldM].
    - exists x. split; auto. split; auto. split; auto. rewrite Nat.add_0_r. auto.
    - destruct (@dp_level_ok cap x s (mkset (firstn s g)) (Z.of_nat (s - 1) * wide)%Z Tx) as (x1 & -> & T1 & K1 & H1); [lia|]. cbn [bind].
      destruct (IH (S s) x1) as (x2 & E2 & T2 & B2 & C2); auto; try lia.
      + rewrite K1 by lia. auto.
      + intros He k Hk. destruct (Nat.eq_dec k s) as [->|Nk].
        * apply H1. apply level_hits; auto; [lia|]. apply Cx; auto. lia.
        * unfold covered. rewrite K1 by auto. apply Cx; auto. lia.
      + exists x2. split; auto. split; auto. split; auto. intros He k Hk. apply C2; auto. lia.
  Qed.

  Lemma dp_round_ok cap x : g <> [] -> table_ok x -> nth 1 x [] = base ->
    exists x', dp_round sizes limit output inputs g cap x = Ok x' /\ table_ok x' /\ nth 1 x' [] = base /\ (easy cap -> nth (length g) x' [] <> []).
  Proof.
    intros Hg Tx Bx. unfold dp_round. rewrite Bx. unfold base at 1. rewrite map_length.
    assert (Lg : 1 <= length g) by (destruct g; [congruence|simpl; lia]).
    destruct (@dp_levels_ok cap (length g - 1) 2 x) as (x' & E & T & B & C); auto; [lia| |].
    - intros _ k Hk. assert (k = 1) by lia. subst k. unfold covered. rewrite Bx. unfold base, has_below.
      destruct g as [|j r]; [congruence|]. cbn [firstn map get]. do 3 eexists. unfold mkset. cbn [fold_right sins].
      rewrite eqb_refl. split; [reflexivity|]. simpl. lia.
    - exists x'. split; auto. split; auto. split; auto. intros He. destruct (C He (length g)) as (i & c & t & G & _); [lia|].
      intros Z. rewrite Z in G. discriminate.
  Qed.
  Lemma last_table x : table_ok x -> last x [] = nth (length g) x [].
  Proof.
    intros [L _]. revert L. generalize (length g). clear. induction x as [|a x IH]; intros n L; [discriminate|].
    destruct n; simpl in L; [destruct x; [reflexivity|discriminate]|]. destruct x as [|b x]; [discriminate|].
    change (last (a :: b :: x) []) with (last (b :: x) []). simpl nth. apply IH. simpl in *. lia.
  Qed.
  Lemma dp_while_ok m fuel : g <> [] -> forall cap x, table_ok x -> nth 1 x [] = base ->
    dp_while fuel sizes limit output inputs g (Ok m) cap x = Err OutOfFuel \/
    exists x', dp_while fuel sizes limit output inputs g (Ok m) cap x = Ok x' /\ table_ok x' /\ last x' [] <> [].
  Proof.
    intros Hg. induction fuel as [|fuel IH]; intros cap x Tx Bx; cbn [dp_while]; destruct (last x []) as [|p r] eqn:E; auto.
    - right. exists x. rewrite E. split; auto. split; auto. discriminate.
    - destruct (@dp_round_ok cap x Hg Tx Bx) as (x1 & -> & T1 & B1 & _). cbn [bind]. apply IH; auto.
    - right. exists x. rewrite E. split; auto. split; auto. discriminate.
  Qed.
  Lemma dp_while_stops m fuel : g <> [] -> limit = None -> sizes_from 1 sizes all -> chained -> (2 <= m)%Z ->
    forall cap x, table_ok x -> nth 1 x [] = base -> (1 <= cap)%Z -> (Z.of_nat (length g) * wide <= cap * 2 ^ Z.of_nat fuel)%Z ->
    dp_while (S fuel) sizes limit output inputs g (Ok m) cap x <> Err OutOfFuel.
  Proof.
    intros Hg Hl Hs Hch Hm. induction fuel as [|fuel IH]; intros cap x Tx Bx Hcap Hbig;
      change (dp_while (S ?f) sizes limit output inputs g (Ok m) cap x) with
        (match last x [] with [] => do x' <- dp_round sizes limit output inputs g cap x; dp_while f sizes limit output inputs g (Ok m) (m * cap)%Z x' | _ => Ok x end);
      destruct (last x []) as [|p r] eqn:E; try discriminate;
      destruct (@dp_round_ok cap x Hg Tx Bx) as (x1 & -> & T1 & B1 & C1); cbn [bind].
    - cbn [dp_while]. rewrite (last_table T1). destruct (nth (length g) x1 []) eqn:E1; [|discriminate].
      exfalso. apply C1; auto. split; auto. split; auto. split; auto. simpl in Hbig. lia.
    - apply IH; auto; [nia|]. rewrite Nat2Z.inj_succ, Z.pow_succ_r in Hbig by lia.
      assert (0 < 2 ^ Z.of_nat fuel)%Z by (apply Z.pow_pos_nonneg; lia). nia.
  Qed.

  Lemma start_ok : g <> [] -> table_ok ([] :: base :: repeat [] (length g - 1)).
  Proof.
    intros Hg. split.
    - simpl. rewrite repeat_length. destruct g; [congruence|simpl; lia].
    - intros [|[|m]]; cbn [nth]; [constructor| |].
      + apply Forall_forall. intros p Hp. apply in_map_iff in Hp as (j & <- & Hj). rewrite Forall_forall in Rg. specialize (Rg _ Hj).
        cbn [entry_ok]. split; [repeat constructor|]. split; auto. split; [intros y [<-|[]]; auto|]. split; [apply ix_all|].
        split; [simpl; rewrite app_nil_r; reflexivity|]. split.
        * rewrite Forall_forall in Fe. apply Fe. apply nth_In. lia.
        * intros y j' k [<-|[]]; auto.
      + destruct (nth_in_or_default m (repeat (@nil (nset * entry)) (length g - 1)) []) as [H| ->]; [|constructor].
        apply repeat_spec in H. rewrite H. constructor.
  Qed.

  Lemma dp_graph_ok fuel m : g <> [] ->
    (dp_graph fuel sizes limit output inputs exprs (Ok m) g = Err OutOfFuel \/
     exists z t, dp_graph fuel sizes limit output inputs exprs (Ok m) g = Ok (z, t) /\ full t /\ Permutation (leaves t) (flat_map lv g)) /\
    (limit = None -> sizes_from 1 sizes all -> chained -> (2 <= m)%Z -> Z.to_nat (Z.of_nat (length g) * wide) < fuel ->
     dp_graph fuel sizes limit output inputs exprs (Ok m) g <> Err OutOfFuel).
  Proof.
    intros Hg. unfold dp_graph.
    assert (E1 : mapM (fun j => do i <- at_ inputs j; do e <- at_ exprs j; Ok ([j], (i, 0%Z, e))) g = Ok base).
    { unfold base. clear - Rg Le. induction g as [|j r IH]; auto. inversion Rg; subst. cbn [mapM map].
      unfold at_ at 1 2. rewrite (nth_error_nth' inputs [] H1). cbn [bind]. rewrite (nth_error_nth' exprs (PLeaf 0)) by lia. cbn [bind].
      rewrite IH by auto. reflexivity. }
    rewrite E1. cbn [bind]. destruct (mapM_at _ Rg) as (gi & -> & Pgi). cbn [bind].
    set (o := sinter (mkset (concat gi)) output).
    assert (Io : incl o all).
    { intros y Hy. apply sinter_In in Hy as [Hy _]. apply mkset_In, in_concat in Hy as (u & Hu & Hy).
      destruct (@picks_in nset _ _ _ _ Pgi Hu) as (j & _ & Hj). apply nth_error_In in Hj. rewrite Forall_forall in Iall. apply (Iall _ Hj). auto. }
    rewrite (size_prod (incl_known Io)). cbn [bind].
    match goal with |- context [dp_while ?f ?s ?l ?oo ?i ?gg ?mm ?c ?x] =>
      change (dp_while f s l oo i gg mm c x) with (dp_while fuel sizes limit output inputs g (Ok m) (prod_of sizes o) ([] :: base :: repeat [] (length g - 1))) end.
    split.
    - destruct (@dp_while_ok m fuel Hg (prod_of sizes o) _ (start_ok Hg) eq_refl) as [->|(x & -> & Tx & Nx)]; auto. cbn [bind].
      right. destruct (last x []) as [|[s [[i c] t]] r] eqn:El; [congruence|].
      pose proof Tx as Tx'. rewrite (last_table Tx') in El. destruct Tx as [_ Tx]. specialize (Tx (length g)). rewrite El in Tx.
      apply Forall_inv in Tx. destruct Tx as (Hs & Hls & Hi & Hia & Hp & Hf & _).
      rewrite (size_prod (incl_known Hia)). cbn [bind]. do 2 eexists. split; [reflexivity|]. split; auto.
      rewrite Hp. apply Permutation_flat_map. apply NoDup_Permutation_bis; auto using asc_NoDup. lia.
    - intros Hl Hs Hch Hm Hfuel G. destruct fuel as [|fuel]; [lia|].
      destruct (@dp_while_ok m (S fuel) Hg (prod_of sizes o) _ (start_ok Hg) eq_refl) as [E|(x & E & Tx & Nx)]; rewrite E in G; cbn [bind] in G.
      + revert E. apply dp_while_stops; auto using start_ok.
        * apply prod_pos. intros y Hy. apply Hs. auto.
        * assert (Hw : (1 <= wide)%Z) by (apply prod_pos; auto). assert (Ho : (1 <= prod_of sizes o)%Z) by (apply prod_pos; intros y Hy; apply Hs; auto).
          assert (Z.of_nat fuel < 2 ^ Z.of_nat fuel)%Z by (apply Z.pow_gt_lin_r; lia). 
          assert (Z.of_nat (length g) * wide <= Z.of_nat fuel)%Z by lia. nia.
      + destruct (last x []) as [|[s [[i c] t]] r] eqn:El; [congruence|].
        pose proof Tx as Tx'. rewrite (last_table Tx') in El. destruct Tx as [_ Tx]. specialize (Tx (length g)). rewrite El in Tx.
        apply Forall_inv in Tx. destruct Tx as (_ & _ & _ & Hia & _). rewrite (size_prod (incl_known Hia)) in G. discriminate.
  Qed.
End Graph.
