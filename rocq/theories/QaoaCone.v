(** The energy is the sum over the clauses of sums over their light cones. *)
From Coq Require Import Reals Lra.
From Verif Require Import Base Scalar NetSpec Sums NetAlg Complex QaoaSpec ModelQaoa QaoaBuild QaoaMath.
Set Implicit Arguments.
Open Scope nat_scope.
Local Open Scope K_scope.
Add Ring CKring_qc : (kring CK).

Lemma prodf_filter {X} (P : X -> bool) (f : X -> CK) l : (forall x, In x l -> P x = false -> f x = 1) ->
  prodf f l = prodf f (filter P l).
Proof.
  induction l as [|x r IH]; intros H; cbn [filter prodf]; auto.
  rewrite IH by (intros; apply H; simpl; auto). destruct (P x) eqn:E; cbn [prodf]; auto.
  rewrite (H x) by (auto; left; reflexivity). ring.
Qed.

Lemma over_dom W f : over W f = esum (dom W) f env0.
Proof. reflexivity. Qed.

Section Cone.
  Variable c : csp.
  Notation V := (variables c).

  Lemma V_NoDup : NoDup V.
  Proof. apply dedup_NoDup. Qed.
  Lemma clause_V cl q : In cl (map fst c) -> In q cl -> In q V.
  Proof. intros I Iq. unfold variables. apply dedup_In, in_concat. eauto. Qed.

  Definition isbits (x : bits) : Prop := forall q, In q V -> In (x q) [0; 1]%nat.

  Definition phases (g : R) (l : csp) (x y : bits) : CK :=
    prodf (fun p => cis (g * snd p (map x (fst p))) * cis (- (g * snd p (map y (fst p))))) l.
  (** the operator after one more layer, on the variables [Q ++ N] *)
  Definition next (b g : R) (Q N : list Z) (L : bits -> bits -> CK) (x' y' : bits) : CK :=
    kdelta (same_on N x' y') * (phases g (filter (fun p => touches Q (fst p)) c) x' y' *
    over Q (fun x => over Q (fun y => prodf (fun q => rotation b (x q) (x' q) * rotation (- b) (y q) (y' q)) Q * L x y))).

  Lemma same_on_perm W W' x y : Permutation W W' -> same_on W x y = same_on W' x y.
  Proof.
    intros P. apply eq_true_iff_eq. rewrite !same_on_spec. split; intros H q I; apply H.
    - apply (Permutation_in _ (Permutation_sym P)); auto.
    - apply (Permutation_in _ P); auto.
  Qed.
  Lemma same_on_app W W' x y : same_on (W ++ W') x y = same_on W x y && same_on W' x y.
  Proof. apply forallb_app. Qed.

  Lemma phases_all g x y : cis (g * cost c x) * cis (- (g * cost c y)) = phases g c x y.
  Proof.
    rewrite Ropp_mult_distr_l, !cost_prod. unfold phases. rewrite <- prodf_mul. apply prodf_ext. intros p _.
    rewrite Ropp_mult_distr_l. reflexivity.
  Qed.

  Lemma pull_local b g Q W W' L K : Permutation V (Q ++ W) -> Permutation W (grow c Q ++ W') -> dep2 Q L ->
    (forall x y, isbits x -> isbits y -> K x y = kdelta (same_on W x y) * L x y) ->
    forall x' y', isbits x' -> isbits y' ->
    pull c b g K x' y' = kdelta (same_on W' x' y') * next b g Q (grow c Q) L x' y'.
  Proof.
    intros P P' D HK x' y' Bx By. unfold pull, next. rewrite phases_all, !over_dom.
    transitivity (phases g c x' y' * esum (dom V) (fun x => esum (dom V) (fun y =>
      prodf (fun q => rotation b (x q) (x' q) * rotation (- b) (y q) (y' q) * kdelta (Nat.eqb (x q) (y q))) W *
      (prodf (fun q => rotation b (x q) (x' q) * rotation (- b) (y q) (y' q)) Q * L x y)) env0) env0).
    { f_equal. apply esum_ext; [rewrite keys_dom; apply V_NoDup|]. intros x Rx. apply ranges_dom in Rx as [Rx _].
      rewrite over_dom. apply esum_ext; [rewrite keys_dom; apply V_NoDup|]. intros y Ry. apply ranges_dom in Ry as [Ry _].
      rewrite HK by auto. rewrite !(prodf_perm _ P), !prodf_app, !prodf_mul, prodf_delta.
      unfold same_on. ring. }
    rewrite (@split_pairs CK (fun q a a' => rotation b a (x' q) * rotation (- b) a' (y' q) * kdelta (Nat.eqb a a')) _ V Q W V_NoDup P).
    2:{ intros x x1 y y1 Ex Ey. f_equal; [|apply D; auto]. apply prodf_ext. intros q I. rewrite Ex, Ey by auto. reflexivity. }
    rewrite (prodf_ext _ (fun q => kdelta (Nat.eqb (x' q) (y' q)))).
    2:{ intros q I. apply rotation_inv; [apply Bx|apply By]; apply (Permutation_in _ (Permutation_sym P)), in_app_iff; auto. }
    rewrite prodf_delta. fold (same_on W x' y').
    assert (Sp : kdelta (same_on W x' y') = kdelta (same_on (grow c Q) x' y') * kdelta (same_on W' x' y') :> CK).
    { rewrite (same_on_perm _ _ P'), same_on_app, kdelta_andb. reflexivity. }
    destruct (same_on W x' y') eqn:E.
    - rewrite <- (kmul_1_l _ (kdelta true)) at 1.
      assert (Ph : phases g c x' y' = phases g (filter (fun p => touches Q (fst p)) c) x' y').
      { apply prodf_filter. intros p Ip T. rewrite same_on_spec in E.
        replace (map y' (fst p)) with (map x' (fst p)); [apply cis_neg|].
        apply map_ext_in. intros q Iq. apply E.
        assert (Iv : In q V) by (apply (@clause_V (fst p)); auto; apply in_map; auto).
        apply (Permutation_in _ P), in_app_iff in Iv as [Iv|]; auto. exfalso.
        assert (touches Q (fst p) = true) by (apply touches_In; eauto). congruence. }
      rewrite Ph. unfold over. fold (dom Q).
      match goal with |- _ * (_ * ?A) = _ => set (AA := A) end.
      match goal with |- _ = _ * (_ * (_ * ?B)) => change B with AA end.
      rewrite Sp. ring.
    - cbn [kdelta] in *. match goal with |- _ = ?a * (?d * ?r) => transitivity ((d * a) * r); [|ring] end.
      rewrite <- Sp. ring.
  Qed.

  Lemma next_dep b g cl i L : dep2 (cone c cl i) L ->
    dep2 (cone c cl (Datatypes.S i)) (next b g (cone c cl i) (grow c (cone c cl i)) L).
  Proof.
    intros D x x1 y y1 Ex Ey. unfold next. f_equal; [|f_equal].
    - f_equal. apply eq_true_iff_eq. rewrite !same_on_spec. split; intros H q I.
      + rewrite <- Ex, <- Ey; auto; simpl; apply in_app_iff; auto.
      + rewrite Ex, Ey; auto; simpl; apply in_app_iff; auto.
    - apply prodf_ext. intros p I. apply filter_In in I as [I T].
      assert (H : forall q, In q (fst p) -> In q (cone c cl (Datatypes.S i))).
      { intros q Iq. apply (@touched_cone c cl i (fst p)); auto. apply in_map; auto. }
      rewrite (map_ext_in x x1 (fst p)) by (intros; apply Ex; auto). rewrite (map_ext_in y y1 (fst p)) by (intros; apply Ey; auto).
      reflexivity.
    - apply over_ext. intros x2. apply over_ext. intros y2. f_equal. apply prodf_ext. intros q I.
      rewrite (Ex q), (Ey q) by (apply cone_step; auto). reflexivity.
  Qed.

  Fixpoint run (cl : list Z) (l : list (R * R)) (i : nat) (L : bits -> bits -> CK) : bits -> bits -> CK :=
    match l with
    | [] => L
    | (b, g) :: r => run cl r (Datatypes.S i) (next b g (cone c cl i) (grow c (cone c cl i)) L)
    end.

  Lemma cone_V cl i q : In cl (map fst c) -> In q (cone c cl i) -> In q V.
  Proof.
    intros Ic. revert q. induction i as [|i IH]; intros q I; simpl in I.
    - rewrite dedup_In in I. eapply clause_V; eauto.
    - apply in_app_iff in I as [I|I]; auto. apply grow_In in I as (_ & x & Ix & _ & Iq). eapply clause_V; eauto.
  Qed.
  Lemma complement cl i : In cl (map fst c) -> Permutation V (cone c cl i ++ minus V (cone c cl i)).
  Proof.
    intros Ic. apply NoDup_Permutation; [apply V_NoDup| |].
    - apply NoDup_app'; [apply cone_NoDup|apply minus_NoDup|]. intros q I J. apply minus_In in J. tauto.
    - intros q. rewrite in_app_iff, minus_In. split; [|intros [I|[I _]]; auto; eapply cone_V; eauto].
      intros I. destruct (in_dec Z.eq_dec q (cone c cl i)); auto.
  Qed.
  Lemma complement_step cl i : In cl (map fst c) ->
    Permutation (minus V (cone c cl i)) (grow c (cone c cl i) ++ minus V (cone c cl (Datatypes.S i))).
  Proof.
    intros Ic. apply NoDup_Permutation; [apply minus_NoDup| |].
    - apply NoDup_app'; [apply minus_NoDup|apply minus_NoDup|]. intros q I J. apply minus_In in J as [_ J].
      apply J. simpl. apply in_app_iff. auto.
    - intros q. rewrite in_app_iff, !minus_In. simpl. rewrite in_app_iff. split.
      + intros [I N]. destruct (in_dec Z.eq_dec q (grow c (cone c cl i))); tauto.
      + intros [I|[I N]]; [|tauto]. split; [|apply grow_In in I; tauto].
        apply (@cone_V cl (Datatypes.S i)); auto. simpl. apply in_app_iff. auto.
  Qed.

  Lemma expect_ext l K K' : (forall x y, isbits x -> isbits y -> K x y = K' x y) -> expect c l K = expect c l K'.
  Proof.
    intros H. unfold expect. rewrite !over_dom. apply esum_ext; [rewrite keys_dom; apply V_NoDup|].
    intros x Rx. apply ranges_dom in Rx as [Rx _].
    rewrite !over_dom. apply esum_ext; [rewrite keys_dom; apply V_NoDup|].
    intros y Ry. apply ranges_dom in Ry as [Ry _]. rewrite H; auto.
  Qed.

  Lemma expect_run cl l : In cl (map fst c) -> forall i L, dep2 (cone c cl i) L ->
    expect c l (fun x y => kdelta (same_on (minus V (cone c cl i)) x y) * L x y) =
    cr (2 ^ length (minus V (cone c cl (i + length l)))) *
    over (cone c cl (i + length l)) (fun x => over (cone c cl (i + length l)) (fun y => run cl l i L x y)).
  Proof.
    intros Ic. induction l as [|[b g] r IH]; intros i L D.
    - cbn [length run]. rewrite Nat.add_0_r. unfold expect. cbn [amp].
      set (Q := cone c cl i) in *. set (W := minus V Q).
      transitivity (esum (dom V) (fun x => esum (dom V) (fun y => prodf (fun q => kdelta (Nat.eqb (x q) (y q))) W * L x y) env0) env0).
      { apply esum_ext_all. intros x. apply esum_ext_all. intros y. rewrite prodf_delta, kconj_1. fold (same_on W x y). ring. }
      rewrite (@split_pairs CK (fun q a a' => kdelta (Nat.eqb a a')) L V Q W V_NoDup); auto; [|apply complement; auto].
      f_equal. clear. induction W as [|q W IH]; cbn [prodf length pow]; [ck; auto|].
      rewrite IH. cbn [sumf Nat.eqb kdelta]. ck; ring.
    - rewrite expect_pull.
      rewrite (@expect_ext _ _ (fun x y => kdelta (same_on (minus V (cone c cl (Datatypes.S i))) x y) *
        next b g (cone c cl i) (grow c (cone c cl i)) L x y)).
      2:{ intros x y Bx By. apply pull_local with (W := minus V (cone c cl i)); auto; [apply complement|apply complement_step]; auto. }
      rewrite IH by (apply next_dep; auto). cbn [length run]. rewrite Nat.add_succ_r. reflexivity.
  Qed.

  Lemma over_pin x f : isbits x -> (forall y y', (forall q, In q V -> y q = y' q) -> f y = f y') ->
    over V (fun y => kdelta (same_on V x y) * f y) = f x.
  Proof.
    intros B D. rewrite over_dom.
    rewrite (esum_ext_all _ _ (fun y => kdelta (eqb (map y (keys (dom V))) (map x V)) * f y)).
    2:{ intros y. f_equal. f_equal. rewrite keys_dom. unfold same_on. generalize V. induction l as [|q l IH]; auto.
        cbn [forallb map]. rewrite IH, Nat.eqb_sym. reflexivity. }
    rewrite <- (app_nil_r (dom V)) at 1. rewrite esum_pin_list.
    - rewrite keys_dom. cbn [esum].
      replace (all_in (dom V) (map x V)) with true.
      + cbn [kdelta]. rewrite (D _ x); [ring|]. intros q I. apply upds_self; auto. apply V_NoDup.
      + symmetry. unfold isbits in B. revert B. generalize V. induction l as [|q l IH]; intros B; auto.
        cbn [dom map all_in]. fold (dom l). rewrite IH by (intros; apply B; simpl; auto).
        rewrite andb_true_r. apply mem_In, B. simpl; auto.
    - rewrite app_nil_r, keys_dom. apply V_NoDup.
    - intros a ws I. unfold dom in I. apply in_map_iff in I as (r & E & _). inversion E. repeat constructor; simpl; intuition discriminate.
  Qed.
  Lemma amp_dep l x x' : (forall q, In q V -> x q = x' q) -> amp c l x = amp c l x'.
  Proof.
    destruct l as [|[b g] r]; intros E; cbn [amp]; auto. apply over_ext. intros y. f_equal. apply prodf_ext. intros q I.
    rewrite E by auto. reflexivity.
  Qed.

  (** the diagonal operator of one clause, on its own variables *)
  Definition observable (p : list Z * (list nat -> R)) (x y : bits) : CK :=
    kdelta (same_on (dedup (fst p)) x y) * cr (snd p (map x (fst p))).
  Lemma observable_dep p : dep2 (cone c (fst p) 0) (observable p).
  Proof.
    intros x x' y y' Ex Ey. cbn [cone] in *. unfold observable. f_equal; [|apply (f_equal (fun v => cr (snd p v)))].
    - f_equal. apply eq_true_iff_eq. rewrite !same_on_spec. split; intros H q I.
      + rewrite <- Ex, <- Ey; auto.
      + rewrite Ex, Ey; auto.
    - apply map_ext_in. intros q I. apply Ex. apply dedup_In. auto.
  Qed.
  Definition clause_energy (l : list (R * R)) (p : list Z * (list nat -> R)) : CK :=
    cr (/ 2 ^ length (cone c (fst p) (length l))) *
    over (cone c (fst p) (length l)) (fun x => over (cone c (fst p) (length l)) (fun y => run (fst p) l 0 (observable p) x y)).

  Lemma expect_clause l p : In p c ->
    cr (/ 2 ^ length V) * over V (fun x => kconj (amp c l x) * (cr (snd p (map x (fst p))) * amp c l x)) = clause_energy l p.
  Proof.
    intros Ip. assert (Ic : In (fst p) (map fst c)) by (apply in_map; auto).
    transitivity (cr (/ 2 ^ length V) * expect c l (fun x y => kdelta (same_on (minus V (cone c (fst p) 0)) x y) * observable p x y)).
    { f_equal. unfold expect. rewrite !over_dom. apply esum_ext; [rewrite keys_dom; apply V_NoDup|].
      intros x Rx. apply ranges_dom in Rx as [Rx _]. fold (isbits x) in Rx.
      rewrite <- (@over_pin x (fun y => kconj (amp c l y) * (cr (snd p (map x (fst p))) * amp c l x)) Rx).
      2:{ intros y y' E. rewrite (@amp_dep l y y' E). reflexivity. }
      apply over_ext. intros y. unfold observable.
      rewrite (same_on_perm x y (complement (fst p) 0%nat Ic)), same_on_app, kdelta_andb. cbn [cone]. ring. }
    rewrite expect_run; auto.
    2:{ apply observable_dep. }
    cbn [Nat.add]. unfold clause_energy. rewrite !kmul_assoc. f_equal.
    assert (E : length V = (length (cone c (fst p) (length l)) + length (minus V (cone c (fst p) (length l))))%nat).
    { rewrite (Permutation_length (complement (fst p) (length l) Ic)), app_length. reflexivity. }
    rewrite E, pow_add.
    assert (P1 : (2 ^ length (cone c (fst p) (length l)) <> 0)%R) by (apply pow_nonzero; lra).
    assert (P2 : (2 ^ length (minus V (cone c (fst p) (length l))) <> 0)%R) by (apply pow_nonzero; lra).
    ck; [field; auto|ring].
  Qed.

  Lemma energy_cone angles : energy c angles = sumf (clause_energy (rev angles)) c.
  Proof.
    rewrite energy_amp. rewrite (sumf_ext _ (fun p => cr (/ 2 ^ length V) *
      over V (fun x => kconj (amp c (rev angles) x) * (cr (snd p (map x (fst p))) * amp c (rev angles) x)))).
    2:{ intros p I. symmetry. apply expect_clause; auto. }
    rewrite sumf_mul_l. f_equal. unfold over at 2. rewrite <- esum_sumf. apply esum_ext_all. intros x.
    rewrite sumf_mul_l. f_equal. rewrite sumf_mul_r. f_equal.
    unfold cost. generalize c. induction c0 as [|p r IH]; cbn [fold_right sumf]; [ck; auto|]. rewrite <- IH. ck; ring.
  Qed.
End Cone.

(** ** the energy is an average of costs *)
Section Average.
  Variable c : csp.
  Notation V := (variables c).

  Lemma grow_nil : grow c [] = [].
  Proof.
    destruct (grow c []) as [|q r] eqn:E; auto. exfalso.
    assert (I : In q (grow c [])) by (rewrite E; simpl; auto). apply grow_In in I as (_ & x & _ & T & _).
    apply touches_In in T as (z & _ & []).
  Qed.
  Lemma norm_amp l : expect c l (fun x y => kdelta (same_on V x y)) = cr (2 ^ length V).
  Proof.
    induction l as [|[b g] r IH].
    - unfold expect. cbn [amp]. rewrite over_dom.
      transitivity (esum (dom V) (fun x => esum (dom V) (fun y => prodf (fun q => kdelta (Nat.eqb (x q) (y q))) V * (1 : CK)) env0) env0).
      { apply esum_ext_all. intros x. apply esum_ext_all. intros y. rewrite prodf_delta, kconj_1. fold (same_on V x y). ring. }
      rewrite (@split_pairs CK (fun q a a' => kdelta (Nat.eqb a a')) (fun _ _ => 1) V [] V (V_NoDup c)); auto; [|intros ? ? ? ? _ _; auto].
      cbn [dom map esum]. rewrite kmul_1_r. generalize V. induction l as [|q l IH]; cbn [prodf length pow]; [ck; auto|].
      rewrite IH. cbn [sumf Nat.eqb kdelta]. ck; ring.
    - rewrite expect_pull, <- IH. apply expect_ext. intros x y Bx By.
      rewrite (@pull_local c b g [] V V (fun _ _ => 1) _); auto.
      + unfold next. rewrite grow_nil. cbn [same_on forallb kdelta].
        replace (filter (fun z => touches [] (fst z)) c) with (@nil (list Z * (list nat -> R))).
        * unfold phases, over. cbn [map esum prodf]. ring.
        * symmetry. clear. induction c as [|z l IH0]; auto. cbn [filter].
          destruct (touches [] (fst z)) eqn:T; auto. apply touches_In in T as (q & _ & []).
      + rewrite grow_nil. reflexivity.
      + intros ? ? ? ? _ _; auto.
      + intros; ring.
  Qed.

  Definition norm2 (z : CK) : R := (fst z * fst z + snd z * snd z)%R.
  Lemma conj_norm (z : CK) k : kconj z * (cr k * z) = cr (k * norm2 z)%R.
  Proof. destruct z as [a b]. unfold norm2. ck; ring. Qed.
  Lemma norm2_pos z : (0 <= norm2 z)%R.
  Proof. unfold norm2. apply Rplus_le_le_0_compat; apply Rle_0_sqr. Qed.

  Lemma state_norm angles : over V (fun x => cr (norm2 (qaoa_state c angles x))) = 1.
  Proof.
    transitivity (cr (/ 2 ^ length V) * expect c (rev angles) (fun x y => kdelta (same_on V x y))).
    - unfold expect. rewrite !over_dom, <- esum_scale. apply esum_ext; [rewrite keys_dom; apply V_NoDup|].
      intros x Rx. apply ranges_dom in Rx as [Rx _].
      transitivity (kconj (qaoa_state c angles x) * (cr 1 * qaoa_state c angles x)); [rewrite conj_norm, Rmult_1_l; reflexivity|].
      rewrite !state_amp, kconj_mul.
      assert (P : (0 < 2 ^ length V)%R) by (apply pow_lt; lra).
      assert (X : kconj (cr (/ sqrt (2 ^ length V))) * cr (/ sqrt (2 ^ length V)) = cr (/ 2 ^ length V)).
      { assert (Q : (/ sqrt (2 ^ length V) * / sqrt (2 ^ length V) = / 2 ^ length V)%R).
        { rewrite <- Rinv_mult. rewrite sqrt_sqrt; lra. }
        ck; try ring. rewrite <- Q. ring. }
      rewrite <- X.
      transitivity ((kconj (cr (/ sqrt (2 ^ length V))) * cr (/ sqrt (2 ^ length V))) *
        over V (fun y => kdelta (same_on V x y) * (kconj (amp c (rev angles) y) * amp c (rev angles) x))).
      + rewrite over_pin; auto; [|intros y y' E; rewrite (@amp_dep c (rev angles) y y' E); reflexivity].
        replace (cr 1) with (1 : CK) by (ck; auto). ring.
      + f_equal. apply over_ext. intros y. ring.
    - rewrite norm_amp. assert (P : (2 ^ length V <> 0)%R) by (apply pow_nonzero; lra). ck; [field; auto|ring].
  Qed.

  Lemma esum_real (d : list (Z * list nat)) (f g : bits -> R) s : (forall s, f s <= g s)%R ->
    exists a b, esum d (fun s => cr (f s)) s = cr a /\ esum d (fun s => cr (g s)) s = cr b /\ (a <= b)%R.
  Proof.
    intros H. revert s. induction d as [|[q vs] r IH]; intros s; cbn [esum].
    - exists (f s), (g s). auto.
    - induction vs as [|v vs IHv]; cbn [sumf].
      + exists 0%R, 0%R. split; [ck; auto|]. split; [ck; auto|]. lra.
      + destruct (IH (upd s q v)) as (a & b & -> & -> & L). destruct IHv as (a' & b' & -> & -> & L').
        exists (a + a')%R, (b + b')%R. split; [ck; ring|]. split; [ck; ring|]. lra.
  Qed.
  Definition clamp (x : bits) : bits := fun q => match x q with 0%nat => 0%nat | _ => 1%nat end.
  Lemma clamp_cost x : isbits c x -> cost c (clamp x) = cost c x.
  Proof.
    intros B. assert (Q : forall l, incl l c -> cost l (clamp x) = cost l x); [|apply Q, incl_refl].
    induction l as [|z l IH]; intros I; auto. unfold cost in *. cbn [fold_right]. rewrite IH by (intros a Ia; apply I; simpl; auto).
    f_equal. f_equal. apply map_ext_in. intros q Iq. assert (K : In q V) by (apply (@clause_V c (fst z)); auto; apply in_map, I; simpl; auto).
    unfold clamp. destruct (B q K) as [E|[E|[]]]; rewrite <- E; reflexivity.
  Qed.

  Theorem energy_bounds angles lo hi : (forall x, (forall q, In (x q) [0; 1]%nat) -> lo <= cost c x <= hi)%R ->
    exists e, energy c angles = cr e /\ (lo <= e <= hi)%R.
  Proof.
    intros H. set (w := fun x => norm2 (qaoa_state c angles x)). set (k := fun x => cost c (clamp x)).
    assert (K : forall x, (lo <= k x <= hi)%R).
    { intros x. apply H. intros q. unfold clamp. destruct (x q); simpl; auto. }
    assert (E : energy c angles = esum (dom V) (fun x => cr (k x * w x)%R) env0).
    { unfold energy. rewrite over_dom. apply esum_ext; [rewrite keys_dom; apply V_NoDup|]. intros x Rx. apply ranges_dom in Rx as [Rx _].
      rewrite conj_norm. unfold k. rewrite clamp_cost by auto. reflexivity. }
    assert (Sc : forall r, esum (dom V) (fun x => cr (r * w x)%R) env0 = cr r).
    { intros r. rewrite (esum_ext_all _ _ (fun x => cr r * cr (w x))) by (intros; ck; ring). rewrite esum_scale.
      pose proof (state_norm angles) as N. transitivity (cr r * 1); [f_equal; exact N|ring]. }
    assert (cr_inj : forall a b, cr a = cr b -> a = b) by (intros a b Q; inversion Q; auto).
    destruct (@esum_real (dom V) (fun x => lo * w x)%R (fun x => k x * w x)%R env0) as (a & b & E1 & E2 & L1).
    { intros x. apply Rmult_le_compat_r; [apply norm2_pos|apply K]. }
    destruct (@esum_real (dom V) (fun x => k x * w x)%R (fun x => hi * w x)%R env0) as (a' & b' & E3 & E4 & L2).
    { intros x. apply Rmult_le_compat_r; [apply norm2_pos|apply K]. }
    rewrite Sc in E1, E4. apply cr_inj in E1, E4. rewrite E2 in E3. apply cr_inj in E3. subst. exists a'. rewrite E, E2. auto.
  Qed.
End Average.
