(** * The state after a measurement is a density matrix *)
From Coq Require Import Reals Lra.
From Verif Require Import Base Scalar NetSpec Sums NetAlg ModelArray ModelTN ModelVal OpsSpec ModelContract CircSpec CircOrder ModelCircuit CircSem CircCtrl DensSpec Complex MatSpec MatProofs NoiseSpec MeasureSpec.
Set Implicit Arguments.
Local Open Scope K_scope.
Add Ring CKring_ms : (kring CK).

Lemma ins_cons k b u y : ins (Datatypes.S k) b (u :: y) = u :: ins k b y. Proof. reflexivity. Qed.
Lemma words_S n : words2 (Datatypes.S n) = map (cons 0%nat) (words2 n) ++ map (cons 1%nat) (words2 n).
Proof. change (words2 (Datatypes.S n)) with (map (cons 0%nat) (words2 n) ++ map (cons 1%nat) (words2 n) ++ []). rewrite app_nil_r. auto. Qed.
Lemma sum_ins (k n : nat) : (k <= n)%nat -> forall f : list nat -> CK,
  sumf f (words2 (Datatypes.S n)) = sumf (fun y => f (ins k 0 y)) (words2 n) + sumf (fun y => f (ins k 1 y)) (words2 n).
Proof.
  revert n. induction k as [|k IH]; intros n L f.
  - rewrite words_S, sumf_app, !sumf_map. reflexivity.
  - destruct n as [|n]; [lia|]. rewrite words_S, sumf_app, !sumf_map. rewrite (IH n ltac:(lia) (fun x => f (0%nat :: x))), (IH n ltac:(lia) (fun x => f (1%nat :: x))).
    rewrite (words_S n), !sumf_app, !sumf_map. cbn [ins]. unfold ins. cbn [firstn skipn app]. ring.
Qed.
(** the other bits *)
Definition drop (k : nat) (x : list nat) : list nat := firstn k x ++ skipn (Datatypes.S k) x.
Lemma drop_ins k b y : (k <= length y)%nat -> drop k (ins k b y) = y.
Proof.
  intros L. unfold drop, ins. rewrite firstn_app, firstn_firstn, firstn_length, Nat.min_id.
  replace (k - Nat.min k (length y))%nat with 0%nat by lia. cbn [firstn]. rewrite app_nil_r, skipn_app, firstn_length.
  rewrite skipn_all2 by (rewrite firstn_length; lia). replace (Datatypes.S k - Nat.min k (length y))%nat with 1%nat by lia. cbn [app skipn]. apply firstn_skipn.
Qed.
Lemma nth_ins k b y : (k <= length y)%nat -> nth k (ins k b y) 0%nat = b.
Proof. intros L. unfold ins. rewrite app_nth2; rewrite firstn_length; [|lia]. replace (k - Nat.min k (length y))%nat with 0%nat by lia. auto. Qed.
Lemma ins_bits2 n k b y : bits n y -> (b < 2)%nat -> (k <= n)%nat -> bits (Datatypes.S n) (ins k b y).
Proof.
  intros [L F] Hb Hi. unfold ins. split.
  - rewrite app_length. cbn [length]. rewrite firstn_length, skipn_length. lia.
  - rewrite <- (firstn_skipn k y) in F. apply Forall_app in F as [F1 F2]. apply Forall_app. split; auto.
Qed.

Lemma fst_add (a b : CK) : fst (a + b) = (fst a + fst b)%R. Proof. reflexivity. Qed.
Lemma nonneg_add a b : nonneg a -> nonneg b -> nonneg (a + b).
Proof. intros (p & Hp & ->) (q & Hq & ->). exists (p + q)%R. split; [lra|]. ck; ring. Qed.
Lemma nonneg_sum {X} (f : X -> CK) l : (forall x, In x l -> nonneg (f x)) -> nonneg (sumf f l).
Proof.
  induction l as [|a l IH]; intros H; [exists 0%R; split; [lra|reflexivity]|]. cbn [sumf]. apply nonneg_add; [apply H; simpl; auto|apply IH; intros; apply H; simpl; auto].
Qed.
Lemma nonneg_scale p z : (0 < p)%R -> nonneg z -> nonneg (cr (/ p) * z).
Proof. intros Hp (r & Hr & ->). exists (/ p * r)%R. split; [apply Rmult_le_pos; auto; left; apply Rinv_0_lt_compat; auto|]. ck; ring. Qed.
Lemma nonneg_fst z : nonneg z -> z = cr (fst z). Proof. intros (p & _ & ->). reflexivity. Qed.
Lemma cr_inv p z : (p <> 0)%R -> z = cr p -> cr (/ p) * z = 1.
Proof. intros Np ->. ck; field; auto. Qed.

Section State.
  Context (n k : nat) (rho : mat CK).
  Hypothesis Hk : (k <= n)%nat.
  Hypothesis St : state (Datatypes.S n) rho.

  Lemma diag_nonneg x : bits (Datatypes.S n) x -> nonneg (rho x x).
  Proof.
    intros B. destruct St as (_ & P & _). specialize (P (fun y => kdelta (eqb y x))).
    assert (M : mem x (words2 (Datatypes.S n)) = true) by (apply mem_In, in_words; auto).
    rewrite (sumf_ext _ (fun y => kdelta (eqb y x) * rho x x)) in P.
    - rewrite sumf_pin in P by apply words_NoDup. rewrite M in P. cbn [kdelta] in P. replace (rho x x) with (k1 * rho x x) by ring. exact P.
    - intros y Iy. rewrite kconj_delta.
      rewrite (sumf_ext _ (fun z => kdelta (eqb z x) * (kdelta (eqb y x) * rho y z))) by (intros z _; ring).
      rewrite sumf_pin, M by apply words_NoDup. cbn [kdelta]. destruct (eqb_spec y x) as [->|_]; cbn [kdelta]; ring.
  Qed.
  Lemma born_nonneg b : (b < 2)%nat -> nonneg (sumf (fun y => rho (ins k b y) (ins k b y)) (words2 n)).
  Proof. intros Hb. apply nonneg_sum. intros y Iy. apply in_words in Iy. apply diag_nonneg, ins_bits2; auto. Qed.
  Lemma born_pos b : (b < 2)%nat -> (0 <= born n k b rho)%R.
  Proof. intros Hb. unfold born. destruct (born_nonneg Hb) as (p & Hp & ->). auto. Qed.
  Lemma born_one : (born n k 0 rho + born n k 1 rho = 1)%R.
  Proof.
    destruct St as (_ & _ & T). unfold mtrace in T. rewrite (sum_ins Hk) in T. apply (f_equal fst) in T. rewrite fst_add in T. exact T.
  Qed.

  Context (b : nat) (Hb : (b < 2)%nat).
  Notation p := (born n k b rho).
  Hypothesis Hp : (0 < p)%R.

  Theorem without_state : state n (without k b p rho).
  Proof.
    destruct St as (He & P & T). unfold without. split; [|split].
    - intros y y' B B'. unfold madj. rewrite kconj_mul. pose proof (He (ins k b y) (ins k b y') (ins_bits2 B Hb Hk) (ins_bits2 B' Hb Hk)) as E.
      unfold madj in E. rewrite E. f_equal. ck; ring.
    - intros w. specialize (P (fun x => if Nat.eqb (nth k x 0%nat) b then w (drop k x) else 0)).
      assert (E : forall f : list nat -> CK, (forall x, bits (Datatypes.S n) x -> nth k x 0%nat <> b -> f x = 0) ->
        sumf f (words2 (Datatypes.S n)) = sumf (fun y => f (ins k b y)) (words2 n)).
      { intros f F. rewrite (sum_ins Hk). destruct b as [|[|b']]; [| |lia].
        - rewrite (sumf_0 (fun y => f (ins k 1 y))); [ring|]. intros y Iy. apply in_words in Iy. apply F; [apply ins_bits2; auto|]. destruct Iy. rewrite nth_ins by lia. lia.
        - rewrite (sumf_0 (fun y => f (ins k 0 y))); [ring|]. intros y Iy. apply in_words in Iy. apply F; [apply ins_bits2; auto|]. destruct Iy. rewrite nth_ins by lia. lia. }
      rewrite E in P.
      2:{ intros x _ Nx. apply sumf_0. intros z _. rewrite (proj2 (Nat.eqb_neq _ _) Nx). replace (kconj (0 : CK)) with (0 : CK) by (ck; ring). ring. }
      rewrite (sumf_ext _ (fun y => cr (/ p) * sumf (fun y' => kconj (w y) * rho (ins k b y) (ins k b y') * w y') (words2 n))).
      + rewrite sumf_mul_l. apply nonneg_scale; auto. eapply eq_ind; [exact P|]. apply sumf_ext. intros y Iy. apply in_words in Iy. destruct Iy as [Ly By].
        rewrite E; [|intros x _ Nx; rewrite (proj2 (Nat.eqb_neq _ _) Nx); ring].
        apply sumf_ext. intros y' Iy'. apply in_words in Iy'. destruct Iy' as [Ly' By']. rewrite !nth_ins, !drop_ins, Nat.eqb_refl by lia. auto.
      + intros y _. rewrite <- sumf_mul_l. apply sumf_ext. intros y' _. ring.
    - unfold mtrace. rewrite sumf_mul_l. apply cr_inv; [lra|]. apply nonneg_fst, born_nonneg; auto.
  Qed.
  Theorem given_state : state (Datatypes.S n) (given k b p rho).
  Proof.
    destruct St as (He & P & T). unfold given. split; [|split].
    - intros x x' B B'. unfold madj. pose proof (He x x' B B') as E. unfold madj in E. rewrite andb_comm. destruct (_ && _); [|ck; ring].
      rewrite kconj_mul, E. f_equal. ck; ring.
    - intros w. specialize (P (fun x => if Nat.eqb (nth k x 0%nat) b then w x else 0)). eapply nonneg_scale with (p := p) in P; auto.
      eapply eq_ind; [exact P|]. rewrite <- sumf_mul_l. apply sumf_ext. intros x _. rewrite <- sumf_mul_l. apply sumf_ext. intros x' _.
      replace (kconj (if Nat.eqb (nth k x 0%nat) b then w x else 0)) with (if Nat.eqb (nth k x 0%nat) b then kconj (w x) else 0) by (destruct (Nat.eqb _ _); auto; ck; ring).
      destruct (Nat.eqb _ _), (Nat.eqb _ _); cbn [andb]; ring.
    - unfold mtrace. rewrite (sum_ins Hk).
      assert (E : forall u, (u < 2)%nat -> sumf (fun y => if Nat.eqb (nth k (ins k u y) 0%nat) b && Nat.eqb (nth k (ins k u y) 0%nat) b then cr (/ p) * rho (ins k u y) (ins k u y) else 0) (words2 n) =
        if Nat.eqb u b then 1 else 0).
      { intros u Hu. destruct (Nat.eqb_spec u b) as [->|Ne].
        - rewrite (sumf_ext _ (fun y => cr (/ p) * rho (ins k b y) (ins k b y))); [|intros y Iy; apply in_words in Iy as [Ly _]; rewrite nth_ins, Nat.eqb_refl by lia; auto].
          rewrite sumf_mul_l. apply cr_inv; [lra|]. apply nonneg_fst, born_nonneg; auto.
        - apply sumf_0. intros y Iy. apply in_words in Iy as [Ly _]. rewrite nth_ins by lia. rewrite (proj2 (Nat.eqb_neq _ _) Ne). auto. }
      rewrite !E by lia. destruct b as [|[|b']]; [| |lia]; cbn; ck; ring.
  Qed.
End State.
