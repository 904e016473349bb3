(** * Measuring, discarding and preparing a wire, on states *)
From Coq Require Import Sorting.Permutation Sorting.Sorted.
From Verif Require Import Base Scalar NetSpec Sums NetAlg ModelArray ModelTN TNSpec ModelVal ModelOps OpsSpec ModelContract NameOrder CircSpec CircSum CircOrder ModelCircuit CircSem CircShape
  CircCtrl CircMain CircBuild CircUse DensSpec CircDens CircDensNet CircDensOp CircPure ChanCirc ChanTrace CircFlat MatSpec MeasureSpec MeasEvolve.
Set Implicit Arguments.

Section Run.
  Variable S : scalar.
  Local Open Scope K_scope.
  Add Ring K_ring_mr : (kring S).
  Notation env := (env (A := name)).

  Lemma upds_same l : forall z (e1 e2 : env), (forall p, e1 p = e2 p) -> forall p, upds e1 l z p = upds e2 l z p.
  Proof.
    induction l as [|x l IH]; intros [|u z] e1 e2 E p; cbn [upds]; auto. apply IH. intros p'. unfold upd. destruct (eqb p' x); auto.
  Qed.
  Lemma upds_upd l q b : forall z (s : env) p, ~ In q l -> upds (upd s q b) l z p = upd (upds s l z) q b p.
  Proof.
    induction l as [|x l IH]; intros [|u z] s p N; cbn [upds]; auto.
    rewrite <- IH by (intros I; apply N; simpl; auto). apply upds_same.
    intros p'. unfold upd. destruct (eqb_spec p' x) as [->|]; auto. destruct (eqb_spec x q) as [->|]; auto. exfalso; apply N; simpl; auto.
  Qed.
  Lemma place_ins l1 l2 q b y p : ~ In q (l1 ++ l2) -> (length l1 <= length y)%nat ->
    place (l1 ++ q :: l2) (ins (length l1) b y) p = upd (place (l1 ++ l2) y) q b p.
  Proof.
    unfold place, ins. generalize (@env0 name) as s. revert y. induction l1 as [|x l1 IH]; intros y s N L.
    - cbn [app length firstn skipn upds]. apply upds_upd. exact N.
    - destruct y as [|u y]; [cbn in L; lia|]. cbn [app length firstn skipn upds]. apply IH; [intros I; apply N; simpl; auto|cbn in L; lia].
  Qed.
  Lemma place_nth l q k x : NoDup l -> nth_error l k = Some q -> length x = length l -> place l x q = nth k x 0%nat.
  Proof.
    intros N E L. pose proof (place_map x N L) as Ex. rewrite <- Ex at 2. rewrite nth_indep with (d' := place l x q).
    - rewrite map_nth. f_equal. symmetry. apply nth_error_nth. auto.
    - rewrite map_length. apply nth_error_Some. congruence.
  Qed.
  Lemma upds_app l : forall m u v (s : env), length u = length l -> upds s (l ++ m) (u ++ v) = upds (upds s l u) m v.
  Proof. induction l as [|y l IH]; intros m [|c u] v s Lu; try discriminate; auto. cbn [app upds]. apply IH. cbn in Lu; lia. Qed.
  Lemma place_both O Q x x' : NoDup O -> length x = length O -> length x' = length O -> forall p,
    In p (both Q) -> place (both O) (x ++ x') p = two (place O x) (place O x') p.
  Proof.
    intros N L L' p I. apply both_In in I as (q & _ & Hp).
    assert (Nk : NoDup (map ket O)) by (apply FinFun.Injective_map_NoDup; auto; exact ket_inj). assert (Nb : NoDup (map bra O)) by (apply FinFun.Injective_map_NoDup; auto; exact bra_inj).
    destruct (in_dec eq_dec_of_eqb q O) as [Iq|Nq].
    - unfold place, both. rewrite upds_app by (rewrite map_length; auto). destruct Hp as [->| ->].
      + rewrite upds_notin by (intros I; apply in_map_iff in I as (z & E & _); discriminate E). rewrite two_k. apply (@upds_sim ket); auto.
      + rewrite two_b. apply (@upds_sim bra); auto.
    - rewrite place_notin by (destruct Hp as [->| ->]; rewrite ?both_ket, ?both_bra; auto).
      destruct Hp as [->| ->]; rewrite ?two_k, ?two_b, place_notin; auto.
  Qed.

  (** ** runs *)
  Context (Q : list name) (NQ : NoDup Q).
  Lemma psi_two psi (s s' t t' : env) : depends_on (both Q) psi -> (forall q, In q Q -> s q = t q) -> (forall q, In q Q -> s' q = t' q) ->
    psi (two s s') = psi (two t t') :> S.
  Proof. intros D A B. apply D. intros p I. apply both_In in I as (q & Iq & [->| ->]); rewrite ?two_k, ?two_b; auto. Qed.
  Definition bitwise (s : env) : Prop := forall q, In q Q -> (s q < 2)%nat.
  Lemma two_bits s s' : bitwise s -> bitwise s' -> forall p, In p (both Q) -> (two s s' p < 2)%nat.
  Proof. intros A B p I. apply both_In in I as (q & Iq & [->| ->]); rewrite ?two_k, ?two_b; auto. Qed.
  Lemma psi_upd2 psi s s' q u v : depends_on (both Q) psi -> psi (upd2 (two s s') q u v) = psi (two (upd s q u) (upd s' q v)) :> S.
  Proof.
    intros D. apply D. intros p I. apply both_In in I as (r & Ir & [->| ->]); rewrite ?two_k, ?two_b.
    - destruct (eqb_spec r q) as [->|Ne]; [rewrite upd2_k, upd_eq; auto|]. rewrite upd2_n, upd_neq; auto; [intros E; apply ket_inj in E; auto|discriminate].
    - destruct (eqb_spec r q) as [->|Ne]; [rewrite upd2_b, upd_eq; auto|]. rewrite upd2_n, upd_neq; auto; [discriminate|intros E; apply bra_inj in E; auto].
  Qed.

  Lemma run_meas (ch : chan S) b q psi s s' : (forall u v, (u < 2)%nat -> (v < 2)%nat -> ch [] [u] [] [v] = kdelta (Nat.eqb u b && Nat.eqb v b)) -> (b < 2)%nat ->
    In q Q -> depends_on (both Q) psi -> bitwise s -> bitwise s' -> s q = 0%nat -> s' q = 0%nat ->
    evolve (both Q) (dbl (CAct [q] [[LI]] ch)) psi (two s s') = psi (two (upd s q b) (upd s' q b)).
  Proof.
    intros C Lb Iq D B B' Z Z'. rewrite evolve_in by (auto using two_bits). rewrite two_k, two_b, Z, Z'. cbn [sumf Nat.eqb andb kdelta].
    rewrite !C by lia. rewrite !psi_upd2 by auto. destruct b as [|[|b]]; [| |lia]; cbn [Nat.eqb andb kdelta]; ring.
  Qed.
  Lemma run_trace (ch : chan S) q psi s s' : (forall u v, (u < 2)%nat -> (v < 2)%nat -> ch [] [u] [] [v] = kdelta (Nat.eqb u v)) ->
    In q Q -> depends_on (both Q) psi -> bitwise s -> bitwise s' -> s q = 0%nat -> s' q = 0%nat ->
    evolve (both Q) (dbl (CAct [q] [[LI]] ch)) psi (two s s') = psi (two (upd s q 0%nat) (upd s' q 0%nat)) + psi (two (upd s q 1%nat) (upd s' q 1%nat)).
  Proof.
    intros C Iq D B B' Z Z'. rewrite evolve_in by (auto using two_bits). rewrite two_k, two_b, Z, Z'. cbn [sumf Nat.eqb andb kdelta].
    rewrite !C by lia. rewrite !psi_upd2 by auto. cbn [Nat.eqb andb kdelta]; ring.
  Qed.
  Lemma run_state (ch : chan S) b q psi s s' : (forall u v, (u < 2)%nat -> (v < 2)%nat -> ch [u] [] [v] [] = kdelta (Nat.eqb u b && Nat.eqb v b)) ->
    In q Q -> depends_on (both Q) psi -> bitwise s -> bitwise s' ->
    evolve (both Q) (dbl (CAct [q] [[LO]] ch)) psi (two s s') = kdelta (Nat.eqb (s q) b && Nat.eqb (s' q) b) * psi (two (upd s q 0%nat) (upd s' q 0%nat)).
  Proof. intros C Iq D B B'. rewrite evolve_out by (auto using two_bits). rewrite two_k, two_b, C by auto. rewrite psi_upd2 by auto. auto. Qed.

  Lemma run_traces (ch : chan S) : (forall u v, (u < 2)%nat -> (v < 2)%nat -> ch [] [u] [] [v] = kdelta (Nat.eqb u v)) ->
    forall l psi s s', NoDup l -> incl l Q -> depends_on (both Q) psi -> bitwise s -> bitwise s' -> (forall q, In q l -> s q = 0%nat /\ s' q = 0%nat) ->
    run (both Q) (map (fun q => dbl (CAct [q] [[LI]] ch)) l) psi (two s s') =
    sumf (fun z => psi (two (upds s l z) (upds s' l z))) (words2 (length l)).
  Proof.
    intros C. induction l as [|q l IH]; intros psi s s' N I D B B' Z.
    - cbn. ring.
    - inversion N as [|? ? Nq Nl]; subst. cbn [map]. match goal with |- run ?Q (?x :: ?l) psi ?e = _ => change (run Q (x :: l) psi e) with (run Q l (evolve Q x psi) e) end.
      rewrite IH; auto.
      + change (words2 (length (q :: l))) with (map (cons 0%nat) (words2 (length l)) ++ map (cons 1%nat) (words2 (length l)) ++ []).
        rewrite app_nil_r, sumf_app, !sumf_map.
        rewrite <- sumf_add. apply sumf_ext. intros z Iz. apply in_bits in Iz as [Lz Bz].
        assert (Bu : forall t, bitwise t -> bitwise (upds t l z)) by (intros t Bt p Ip; apply upds_bit; auto).
        destruct (Z q) as [Zq Zq']; [simpl; auto|]. rewrite run_trace; auto; try (apply I; simpl; auto); try (rewrite upds_notin; auto).
        cbn [upds]. f_equal; apply psi_two; auto; intros p _; symmetry; apply upds_upd; auto.
      + intros p Ip. apply I. simpl; auto.
      + apply evolve_depends. cbn [dbl on c_on]. apply both_incl. intros p [<-|[]]. apply I. simpl; auto.
      + intros p Ip. apply Z. simpl; auto.
  Qed.
End Run.
