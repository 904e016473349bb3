(** The energy of the algorithm is a sum over the light cones of the clauses: the Heisenberg picture. *)
From Coq Require Import Reals Lra.
From Verif Require Import Base Scalar NetSpec Sums NetAlg Complex QaoaSpec ModelQaoa QaoaBuild.
Set Implicit Arguments.
Open Scope nat_scope.

(** ** sums *)
Section Sums2.
  Context {S : scalar}.
  Add Ring KringQ : (kring S).
  Local Open Scope K_scope.

  Lemma esum_swap {A B} `{EA : Eqb A} `{EB : Eqb B} d d' (F : env (A := A) -> env (A := B) -> S) : forall s s',
    esum d (fun x => esum d' (F x) s') s = esum d' (fun y => esum d (fun x => F x y) s) s'.
  Proof.
    induction d as [|[a vs] r IH]; intros s s'; cbn [esum]; auto.
    rewrite esum_sumf. apply sumf_ext. intros v _. apply IH.
  Qed.

  Definition dom (Q : list Z) : list (Z * list nat) := map (fun q => (q, [0; 1]%nat)) Q.
  Lemma keys_dom Q : keys (dom Q) = Q.
  Proof. unfold dom, keys. rewrite map_map. apply map_id. Qed.
  Lemma dom_app a b : dom (a ++ b) = dom a ++ dom b.
  Proof. apply map_app. Qed.
  Lemma ranges_dom Q s s' : ranges (dom Q) s s' <-> (forall q, In q Q -> In (s' q) [0; 1]%nat) /\ (forall q, ~ In q Q -> s' q = s q).
  Proof.
    unfold ranges. rewrite keys_dom. split; intros [H1 H2]; split; auto.
    - intros q I. apply (H1 q [0; 1]%nat). unfold dom. apply (in_map (fun q => (q, [0; 1]%nat))). auto.
    - intros q vs I. unfold dom in I. apply in_map_iff in I as (r & E & I). inversion E; subst. auto.
  Qed.

  Lemma prod_pairs (f : Z -> nat -> nat -> S) W : NoDup W -> forall x1 y1,
    esum (dom W) (fun x => esum (dom W) (fun y => prodf (fun q => f q (x q) (y q)) W) y1) x1
    = prodf (fun q => sumf (fun a => sumf (fun b => f q a b) [0; 1]%nat) [0; 1]%nat) W.
  Proof.
    induction W as [|q W IH]; intros ND x1 y1; [reflexivity|]. inversion ND as [|? ? Nq ND']; subst.
    cbn [dom map]. fold (dom W). cbn [esum prodf]. rewrite <- sumf_mul_r. apply sumf_ext. intros a Ia.
    rewrite <- sumf_mul_r.
    transitivity (esum (dom W) (fun x => sumf (fun b => f q a b * esum (dom W) (fun y => prodf (fun q => f q (x q) (y q)) W) (upd y1 q b)) [0; 1]%nat) (upd x1 q a)).
    - apply esum_ext; [rewrite keys_dom; auto|]. intros x Rx. apply ranges_dom in Rx as [_ Rx].
      apply sumf_ext. intros b Ib. rewrite <- esum_scale. apply esum_ext; [rewrite keys_dom; auto|].
      intros y Ry. apply ranges_dom in Ry as [_ Ry]. rewrite (Rx q), (Ry q), !upd_eq by auto. reflexivity.
    - rewrite esum_sumf. apply sumf_ext. intros b _. rewrite esum_scale. f_equal. apply IH; auto.
  Qed.

  Definition dep2 (L : list Z) (A : bits -> bits -> S) : Prop :=
    forall x x' y y', (forall q, In q L -> x q = x' q) -> (forall q, In q L -> y q = y' q) -> A x y = A x' y'.

  Lemma dep2_incl L L' A : incl L L' -> dep2 L A -> dep2 L' A.
  Proof. intros I D x x' y y' E1 E2. apply D; auto. Qed.

  Lemma split_pairs (f : Z -> nat -> nat -> S) (A : bits -> bits -> S) V Q W :
    NoDup V -> Permutation V (Q ++ W) -> dep2 Q A ->
    esum (dom V) (fun x => esum (dom V) (fun y => prodf (fun q => f q (x q) (y q)) W * A x y) env0) env0
    = prodf (fun q => sumf (fun a => sumf (fun b => f q a b) [0; 1]%nat) [0; 1]%nat) W
      * esum (dom Q) (fun x => esum (dom Q) (fun y => A x y) env0) env0.
  Proof.
    intros ND P D.
    assert (PD : Permutation (dom V) (dom Q ++ dom W)) by (rewrite <- dom_app; apply Permutation_map; auto).
    assert (NDQ : NoDup (Q ++ W)) by (eapply Permutation_NoDup; eauto).
    apply NoDup_app_iff in NDQ as (_ & NW & Dj).
    set (F := fun x y => prodf (fun q => f q (x q) (y q)) W * A x y).
    assert (Fe : forall x x' y y', (forall q, x q = x' q) -> (forall q, y q = y' q) -> F x y = F x' y').
    { intros x x' y y' Ex Ey. unfold F. f_equal.
      - apply prodf_ext. intros q _. rewrite Ex, Ey. reflexivity.
      - apply D; auto. }
    transitivity (esum (dom Q ++ dom W) (fun x => esum (dom Q ++ dom W) (F x) env0) env0).
    { rewrite (esum_perm _ PD).
      - apply esum_ext_all. intros x. apply esum_perm; auto; [rewrite keys_dom; auto|].
        intros y y' Ey. apply Fe; auto.
      - rewrite keys_dom; auto.
      - intros x x' Ex. apply esum_ext_all. intros y. apply Fe; auto. }
    rewrite esum_app.
    transitivity (esum (dom Q) (fun x1 => esum (dom Q) (fun y1 => esum (dom W) (fun x2 => esum (dom W) (F x2) y1) x1) env0) env0).
    { apply esum_ext_all. intros x1.
      rewrite <- (@esum_swap Z Z _ _ (dom W) (dom Q) (fun x2 y1 => esum (dom W) (F x2) y1) x1 env0).
      apply esum_ext_all. intros x2. apply esum_app. }
    rewrite <- esum_scale. apply esum_ext_all. intros x1. rewrite <- esum_scale. apply esum_ext_all. intros y1.
    transitivity (esum (dom W) (fun x2 => esum (dom W) (fun y2 => prodf (fun q => f q (x2 q) (y2 q)) W) y1 * A x1 y1) x1).
    - apply esum_ext; [rewrite keys_dom; auto|]. intros x Rx. apply ranges_dom in Rx as [_ Rx].
      rewrite (kmul_comm _ _ (A x1 y1)), <- esum_scale.
      apply esum_ext; [rewrite keys_dom; auto|]. intros y Ry. apply ranges_dom in Ry as [_ Ry].
      unfold F. rewrite (@D x x1 y y1); [ring|intros q I; apply Rx; apply Dj; auto|intros q I; apply Ry; apply Dj; auto].
    - rewrite (esum_ext_all _ _ (fun x2 => A x1 y1 * esum (dom W) (fun y2 => prodf (fun q => f q (x2 q) (y2 q)) W) y1)) by (intros; ring).
      rewrite esum_scale, prod_pairs by auto. ring.
  Qed.
End Sums2.

Local Open Scope K_scope.
Add Ring CKring_qm : (kring CK).

(** ** rotations and phases *)
Lemma cis_add a b : cis (a + b) = cis a * cis b.
Proof. ck; [rewrite cos_plus|rewrite sin_plus]; ring. Qed.
Lemma cis_0 : cis 0 = 1.
Proof. ck; [apply cos_0|apply sin_0]. Qed.
Lemma cis_neg a : cis a * cis (- a) = 1.
Proof. rewrite <- cis_add. rewrite Rplus_opp_r. apply cis_0. Qed.
Lemma cis_conj a : kconj (cis a) = cis (- a).
Proof. ck; [rewrite cos_neg|rewrite sin_neg]; reflexivity. Qed.
Lemma rotation_conj b i j : kconj (rotation b i j) = rotation (- b) i j.
Proof. unfold rotation. rewrite cos_neg, sin_neg. destruct (eqb i j); ck; ring. Qed.
Lemma rotation_inv b i j : In i [0; 1]%nat -> In j [0; 1]%nat ->
  sumf (fun a => sumf (fun a' => rotation b a i * rotation (- b) a' j * kdelta (Nat.eqb a a')) [0; 1]%nat) [0; 1]%nat = kdelta (Nat.eqb i j).
Proof.
  assert (X : (cos b * cos b + sin b * sin b = 1)%R) by (pose proof (sin2_cos2 b) as X; unfold Rsqr in X; lra).
  assert (R0 : forall t, rotation t 0 0 = cr (cos t)) by reflexivity. assert (R1 : forall t, rotation t 1 1 = cr (cos t)) by reflexivity.
  assert (R2 : forall t, rotation t 0 1 = ci * cr (sin t)) by reflexivity. assert (R3 : forall t, rotation t 1 0 = ci * cr (sin t)) by reflexivity.
  intros [<-|[<-|[]]] [<-|[<-|[]]]; cbn [sumf Nat.eqb kdelta]; rewrite ?R0, ?R1, ?R2, ?R3, cos_neg, sin_neg; ck; try ring; nra.
Qed.
Lemma cost_prod (c : csp) g x : cis (g * cost c x) = prodf (fun p => cis (g * snd p (map x (fst p)))) c.
Proof.
  induction c as [|p r IH]; cbn [cost fold_right prodf]; [rewrite Rmult_0_r; apply cis_0|].
  fold (cost r x). rewrite Rmult_plus_distr_l, cis_add, IH. reflexivity.
Qed.

Section Math.
  Variable c : csp.
  Notation V := (variables c).

  (** amplitude, not normalised; the first layer of the list is the last one applied *)
  Fixpoint amp (l : list (R * R)) (x : bits) : CK :=
    match l with
    | [] => 1
    | (b, g) :: r => over V (fun y => prodf (fun q => rotation b (x q) (y q)) V * (cis (g * cost c y) * amp r y))
    end.

  Lemma over_scale W k f : over W (fun y => k * f y) = k * over W f.
  Proof. apply esum_scale. Qed.
  Lemma over_ext W f g : (forall y, f y = g y) -> over W f = over W g.
  Proof. intros H. apply esum_ext_all. auto. Qed.

  Lemma state_amp angles x : qaoa_state c angles x = cr (/ sqrt (2 ^ length V)) * amp (rev angles) x.
  Proof.
    revert x. induction angles as [|[b g] r IH] using rev_ind; intros x.
    - unfold qaoa_state, plus_state. simpl. ck; ring.
    - unfold qaoa_state. rewrite fold_left_app. cbn [fold_left fst snd]. fold (qaoa_state c r).
      rewrite rev_app_distr. cbn [rev app amp]. unfold layer. rewrite <- over_scale. apply over_ext. intros y.
      rewrite IH. ring.
  Qed.

  Lemma energy_amp angles : energy c angles =
    cr (/ 2 ^ length V) * over V (fun x => kconj (amp (rev angles) x) * (cr (cost c x) * amp (rev angles) x)).
  Proof.
    unfold energy. rewrite <- over_scale. apply over_ext. intros x. rewrite !state_amp, kconj_mul.
    assert (X : kconj (cr (/ sqrt (2 ^ length V))) * cr (/ sqrt (2 ^ length V)) = cr (/ 2 ^ length V)).
    { assert (P : (0 < 2 ^ length V)%R) by (apply pow_lt; lra).
      assert (Q : (/ sqrt (2 ^ length V) * / sqrt (2 ^ length V) = / 2 ^ length V)%R).
      { rewrite <- Rinv_mult. rewrite sqrt_sqrt; lra. }
      ck; try ring. rewrite <- Q. ring. }
    rewrite <- X. ring.
  Qed.

  (** equality of two assignments on a list of variables *)
  Definition same_on (W : list Z) (x y : bits) : bool := forallb (fun q => Nat.eqb (x q) (y q)) W.
  Lemma same_on_spec W x y : same_on W x y = true <-> forall q, In q W -> x q = y q.
  Proof. unfold same_on. rewrite forallb_forall. setoid_rewrite Nat.eqb_eq. reflexivity. Qed.

  Definition expect (l : list (R * R)) (K : bits -> bits -> CK) : CK :=
    over V (fun x => over V (fun y => kconj (amp l y) * (K x y * amp l x))).
  (** one layer moved from the states to the operator *)
  Definition pull (b g : R) (K : bits -> bits -> CK) (x' y' : bits) : CK :=
    cis (g * cost c x') * cis (- (g * cost c y')) *
    over V (fun x => over V (fun y => prodf (fun q => rotation b (x q) (x' q)) V * (prodf (fun q => rotation (- b) (y q) (y' q)) V * K x y))).

  Lemma expect_pull b g l K : expect ((b, g) :: l) K = expect l (pull b g K).
  Proof.
    unfold expect, pull. cbn [amp]. unfold over. fold (dom V).
    set (Fx := fun x x' : bits => prodf (fun q => rotation b (x q) (x' q)) V * (cis (g * cost c x') * amp l x')).
    set (Fy := fun y y' : bits => prodf (fun q => rotation (- b) (y q) (y' q)) V * (cis (- (g * cost c y')) * kconj (amp l y'))).
    transitivity (esum (dom V) (fun x => esum (dom V) (fun y => esum (dom V) (fun x' => esum (dom V) (fun y' => Fy y y' * (K x y * Fx x x')) env0) env0) env0) env0).
    { apply esum_ext_all. intros x. apply esum_ext_all. intros y.
      rewrite esum_conj.
      transitivity (esum (dom V) (fun y' => Fy y y') env0 * (K x y * esum (dom V) (fun x' => Fx x x') env0)).
      - f_equal. apply esum_ext_all. intros y'. unfold Fy. rewrite !kconj_mul, cis_conj. f_equal.
        rewrite prodf_conj. apply prodf_ext. intros q _. apply rotation_conj.
      - clearbody Fx Fy. rewrite <- !esum_scale. apply esum_ext_all. intros x'.
        rewrite (esum_ext_all _ (fun y' => Fy y y' * (K x y * Fx x x')) (fun y' => (K x y * Fx x x') * Fy y y')) by (intros; ring).
        rewrite (esum_scale (dom V) (K x y * Fx x x') (fun y' => Fy y y')). ring. }
    transitivity (esum (dom V) (fun x' => esum (dom V) (fun x => esum (dom V) (fun y => esum (dom V) (fun y' => Fy y y' * (K x y * Fx x x')) env0) env0) env0) env0).
    { rewrite <- (@esum_swap CK Z Z _ _ (dom V) (dom V) (fun x x' => esum (dom V) (fun y => esum (dom V) (fun y' => Fy y y' * (K x y * Fx x x')) env0) env0)).
      apply esum_ext_all. intros x.
      apply (@esum_swap CK Z Z _ _ (dom V) (dom V) (fun y x' => esum (dom V) (fun y' => Fy y y' * (K x y * Fx x x')) env0)). }
    apply esum_ext_all. intros x'.
    transitivity (esum (dom V) (fun y' => esum (dom V) (fun x => esum (dom V) (fun y => Fy y y' * (K x y * Fx x x')) env0) env0) env0).
    { rewrite <- (@esum_swap CK Z Z _ _ (dom V) (dom V) (fun x y' => esum (dom V) (fun y => Fy y y' * (K x y * Fx x x')) env0)).
      apply esum_ext_all. intros x.
      apply (@esum_swap CK Z Z _ _ (dom V) (dom V) (fun y y' => Fy y y' * (K x y * Fx x x'))). }
    apply esum_ext_all. intros y'.
    rewrite (kmul_comm _ _ (amp l x')), <- !esum_scale. apply esum_ext_all. intros x. rewrite <- !esum_scale. apply esum_ext_all. intros y.
    unfold Fx, Fy. ring.
  Qed.
End Math.
