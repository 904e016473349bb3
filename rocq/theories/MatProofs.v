(** Algebra of matrices indexed by lists of bits. *)
From Verif Require Import Base Scalar NetSpec Sums NetAlg ModelArray ModelTN ModelVal ModelOps OpsSpec OpsValue ModelContract CircSpec CircSum CircOrder
  ModelCircuit CircSem CircShape CircCtrl CircOp CircMain MatSpec.
Set Implicit Arguments.

Lemma in_words n x : In x (words2 n) <-> bits n x.
Proof. apply in_bits. Qed.
Lemma words_NoDup n : NoDup (words2 n).
Proof.
  unfold words2. induction n as [|n IH]; cbn [repeat indices]; [repeat constructor; auto|].
  cbn [seq flat_map]. rewrite app_nil_r. apply NoDup_app_iff. split; [|split].
  - apply FinFun.Injective_map_NoDup; auto. intros x y E; inversion E; auto.
  - apply FinFun.Injective_map_NoDup; auto. intros x y E; inversion E; auto.
  - intros x Ix Iy. apply in_map_iff in Ix as (y & <- & _). apply in_map_iff in Iy as (z & E & _). discriminate.
Qed.

Section Mat.
  Variable S : scalar.
  Local Open Scope K_scope.
  Notation mat := (mat S).
  Add Ring Kring : (kring S).
  Implicit Types A B C : mat.

  Lemma pin_r n (f : list nat -> S) i : bits n i -> sumf (fun m => kdelta (eqb m i) * f m) (words2 n) = f i.
  Proof.
    intros B. rewrite sumf_pin by apply words_NoDup. apply in_words in B. apply mem_In in B. rewrite B. apply kmul_1_l.
  Qed.
  Lemma pin_l n (f : list nat -> S) o : bits n o -> sumf (fun m => kdelta (eqb o m) * f m) (words2 n) = f o.
  Proof. intros B. rewrite <- (pin_r f B). apply sumf_ext. intros x _. rewrite eqb_sym. auto. Qed.
  Lemma sum_cons n (f : list nat -> S) :
    sumf f (words2 (Datatypes.S n)) = sumf (fun m => f (0%nat :: m)) (words2 n) + sumf (fun m => f (1%nat :: m)) (words2 n).
  Proof.
    unfold words2. cbn [repeat indices seq flat_map]. rewrite app_nil_r, sumf_app, !sumf_map. auto.
  Qed.
  Lemma sum_app m n (f : list nat -> S) :
    sumf f (words2 (m + n)) = sumf (fun x => sumf (fun y => f (x ++ y)) (words2 n)) (words2 m).
  Proof.
    revert f. induction m as [|m IH]; intros f; [symmetry; apply kadd_0_r|].
    cbn [Nat.add]. rewrite !sum_cons, !IH. auto.
  Qed.
  Lemma conj_sum X (f : X -> S) l : kconj (sumf f l) = sumf (fun x => kconj (f x)) l.
  Proof. induction l as [|x l IH]; cbn [sumf]; [apply kconj_0|]. rewrite kconj_add, IH. auto. Qed.

  Lemma meq_refl n A : meq n A A. Proof. intros o i _ _. auto. Qed.
  Lemma meq_sym n A B : meq n A B -> meq n B A.
  Proof. intros E o i Bo Bi. symmetry. auto. Qed.
  Lemma meq_trans n A B C : meq n A B -> meq n B C -> meq n A C.
  Proof. intros E F o i Bo Bi. rewrite E, F; auto. Qed.
  Lemma mmul_ext n A A' B B' : meq n A A' -> meq n B B' -> meq n (mmul n A B) (mmul n A' B').
  Proof.
    intros E F o i Bo Bi. unfold mmul. apply sumf_ext. intros m Im. apply in_words in Im. rewrite E, F; auto.
  Qed.
  Lemma madj_ext n A B : meq n A B -> meq n (madj A) (madj B).
  Proof. intros E o i Bo Bi. unfold madj. rewrite E; auto. Qed.
  Lemma mctrl_ext n c A B : meq n A B -> meq (Datatypes.S n) (mctrl c A) (mctrl c B).
  Proof.
    intros E [|x o] [|y i] Bo Bi; simpl; auto. destruct (Nat.eqb x y), (Nat.eqb x (if c then 1%nat else 0%nat)); auto.
    apply E; [destruct Bo as [L F]|destruct Bi as [L F]]; inversion F; split; simpl in L; auto.
  Qed.
  Lemma bits_cut m n x : bits (m + n) x -> bits m (firstn m x) /\ bits n (skipn m x).
  Proof.
    intros [L F]. rewrite <- (firstn_skipn m x) in F. apply Forall_app in F as [F1 F2]. split; split; auto.
    - rewrite firstn_length. lia.
    - rewrite skipn_length. lia.
  Qed.
  Lemma mkron_ext m n A A' B B' : meq m A A' -> meq n B B' -> meq (m + n) (mkron m A B) (mkron m A' B').
  Proof.
    intros E F o i Bo Bi. apply bits_cut in Bo as [B1 B2]. apply bits_cut in Bi as [B3 B4]. unfold mkron. rewrite E, F; auto.
  Qed.
  Lemma munitary_ext n A B : meq n A B -> munitary n A -> munitary n B.
  Proof.
    intros E [U V]. apply meq_sym in E. split; eapply meq_trans.
    - apply mmul_ext; [apply madj_ext|]; exact E.
    - exact U.
    - apply mmul_ext; [|apply madj_ext]; exact E.
    - exact V.
  Qed.

  Lemma mmul_assoc n A B C : meq n (mmul n A (mmul n B C)) (mmul n (mmul n A B) C).
  Proof.
    intros o i _ _. unfold mmul.
    rewrite (sumf_ext _ (fun m => sumf (fun m' => A o m * B m m' * C m' i) (words2 n))).
    2:{ intros m _. rewrite <- sumf_mul_l. apply sumf_ext. intros; ring. }
    rewrite sumf_swap. apply sumf_ext. intros m _. rewrite <- sumf_mul_r. auto.
  Qed.
  Lemma mmul_1_l n A : meq n (mmul n mone A) A.
  Proof. intros o i Bo Bi. unfold mmul, mone. rewrite pin_l; auto. Qed.
  Lemma mmul_1_r n A : meq n (mmul n A mone) A.
  Proof.
    intros o i Bo Bi. unfold mmul, mone. rewrite (sumf_ext _ (fun m => kdelta (eqb m i) * A o m)) by (intros; ring).
    rewrite pin_r; auto.
  Qed.
  Lemma madj_one n : meq n (madj (S := S) mone) mone.
  Proof. intros o i _ _. unfold madj, mone. rewrite kconj_delta, eqb_sym. auto. Qed.
  Lemma madj_adj n A : meq n (madj (madj A)) A.
  Proof. intros o i _ _. unfold madj. apply kconj_conj. Qed.
  Lemma madj_mul n A B : meq n (madj (mmul n A B)) (mmul n (madj B) (madj A)).
  Proof.
    intros o i _ _. unfold madj, mmul. rewrite conj_sum. apply sumf_ext. intros. rewrite kconj_mul. ring.
  Qed.
  Lemma unitary_one n : munitary (S := S) n mone.
  Proof.
    split; (eapply meq_trans; [apply mmul_ext; [first [apply madj_one|apply meq_refl]|first [apply madj_one|apply meq_refl]]|apply mmul_1_l]).
  Qed.
  Lemma unitary_adj n A : munitary n A -> munitary n (madj A).
  Proof.
    intros [U V]. split; (eapply meq_trans; [apply mmul_ext; [first [apply madj_adj|apply meq_refl]|first [apply madj_adj|apply meq_refl]]|]); auto.
  Qed.
  Lemma mul_cancel n A B X Y : meq n (mmul n X Y) mone -> meq n (mmul n A B) mone -> meq n (mmul n (mmul n A X) (mmul n Y B)) mone.
  Proof.
    intros E F. eapply meq_trans; [|exact F]. eapply meq_trans; [apply meq_sym, mmul_assoc|].
    apply mmul_ext; [apply meq_refl|]. eapply meq_trans; [apply mmul_assoc|].
    eapply meq_trans; [apply mmul_ext; [exact E|apply meq_refl]|apply mmul_1_l].
  Qed.
  Lemma unitary_mul n A B : munitary n A -> munitary n B -> munitary n (mmul n A B).
  Proof.
    intros [U V] [U' V']. split.
    - eapply meq_trans; [apply mmul_ext; [apply madj_mul|apply meq_refl]|]. apply mul_cancel; auto.
    - eapply meq_trans; [apply mmul_ext; [apply meq_refl|apply madj_mul]|]. apply mul_cancel; auto.
  Qed.
  Lemma kron_one m n : meq (S := S) (m + n) (mkron m mone mone) mone.
  Proof.
    intros o i Bo Bi. pose proof (bits_cut _ _ Bo) as [B1 B2]. pose proof (bits_cut _ _ Bi) as [B3 B4]. unfold mkron, mone.
    rewrite <- (firstn_skipn m o) at 3. rewrite <- (firstn_skipn m i) at 3.
    rewrite eqb_app_nat by (destruct B1, B3; congruence). destruct (eqb _ _), (eqb _ _); simpl; ring.
  Qed.
  Lemma kron_adj m A B n : meq n (madj (mkron m A B)) (mkron m (madj A) (madj B)).
  Proof. intros o i _ _. unfold madj, mkron. rewrite kconj_mul. auto. Qed.
  Lemma kron_mul m n A B A' B' : meq (m + n) (mmul (m + n) (mkron m A B) (mkron m A' B')) (mkron m (mmul m A A') (mmul n B B')).
  Proof.
    intros o i Bo Bi. unfold mmul. rewrite sum_app. unfold mkron.
    rewrite <- sumf_mul_r. apply sumf_ext. intros x Ix. rewrite <- sumf_mul_l. apply sumf_ext. intros y Iy.
    apply in_words in Ix as [Lx _]. rewrite <- Lx. rewrite firstn_app, Nat.sub_diag, firstn_all, skipn_app, Nat.sub_diag, skipn_all.
    cbn [firstn skipn app]. rewrite app_nil_r. ring.
  Qed.
  Lemma unitary_kron m n A B : munitary m A -> munitary n B -> munitary (m + n) (mkron m A B).
  Proof.
    intros [U V] [U' V']. split.
    - eapply meq_trans; [apply mmul_ext; [apply kron_adj|apply meq_refl]|]. eapply meq_trans; [apply kron_mul|].
      eapply meq_trans; [apply mkron_ext; eauto|apply kron_one].
    - eapply meq_trans; [apply mmul_ext; [apply meq_refl|apply kron_adj]|]. eapply meq_trans; [apply kron_mul|].
      eapply meq_trans; [apply mkron_ext; eauto|apply kron_one].
  Qed.
  Lemma bits_uncons n x : bits (Datatypes.S n) x -> exists b y, x = b :: y /\ (b = 0 \/ b = 1)%nat /\ bits n y.
  Proof.
    intros [L F]. destruct x as [|b y]; [discriminate|]. inversion F; subst. exists b, y. split; auto. split; [lia|]. split; auto.
  Qed.
  Lemma ctrl_one n c : meq (S := S) (Datatypes.S n) (mctrl c mone) mone.
  Proof.
    intros o i Bo Bi. apply bits_uncons in Bo as (a & x & -> & Ha & Bx). apply bits_uncons in Bi as (b & y & -> & Hb & By).
    unfold mctrl, mone.
    assert (E : eqb (a :: x) (b :: y) = Nat.eqb a b && eqb x y).
    { change (a :: x) with ([a] ++ x). change (b :: y) with ([b] ++ y). rewrite eqb_app_nat by auto. f_equal. destruct (eqb_spec [a] [b]) as [E|N], (Nat.eqb_spec a b); congruence. }
    rewrite E. destruct (Nat.eqb a b), (Nat.eqb a (if c then 1%nat else 0%nat)); auto.
  Qed.
  Lemma ctrl_adj n c A : meq n (madj (mctrl c A)) (mctrl c (madj A)).
  Proof.
    intros o i _ _. unfold madj. destruct o as [|a x], i as [|b y]; cbn [mctrl]; try apply kconj_0.
    rewrite (Nat.eqb_sym b a). destruct (Nat.eqb_spec a b) as [->|]; [|apply kconj_0].
    destruct (Nat.eqb b (if c then 1%nat else 0%nat)); auto. unfold mone. rewrite kconj_delta, eqb_sym. auto.
  Qed.
  Lemma ctrl_mul n c A B : meq (Datatypes.S n) (mmul (Datatypes.S n) (mctrl c A) (mctrl c B)) (mctrl c (mmul n A B)).
  Proof.
    intros o i Bo Bi. apply bits_uncons in Bo as (a & x & -> & Ha & Bx). apply bits_uncons in Bi as (b & y & -> & Hb & By).
    unfold mmul. rewrite sum_cons.
    assert (Z1 : forall f : list nat -> S, sumf (fun m => 0 * f m) (words2 n) = 0) by (intros f; apply sumf_0; intros; ring).
    assert (Z2 : forall f : list nat -> S, sumf (fun m => f m * 0) (words2 n) = 0) by (intros f; apply sumf_0; intros; ring).
    assert (I1 : sumf (fun m => mone (S := S) x m * mone m y) (words2 n) = mone x y) by (unfold mone; rewrite pin_l; auto).
    destruct c; destruct Ha as [->| ->], Hb as [->| ->]; cbn [mctrl Nat.eqb]; rewrite ?Z1, ?Z2, ?I1, ?kadd_0_l, ?kadd_0_r; auto.
  Qed.
  Lemma unitary_ctrl n c A : munitary n A -> munitary (Datatypes.S n) (mctrl c A).
  Proof.
    intros [U V]. split.
    - eapply meq_trans; [apply mmul_ext; [apply ctrl_adj|apply meq_refl]|]. eapply meq_trans; [apply ctrl_mul|].
      eapply meq_trans; [apply mctrl_ext; eauto|apply ctrl_one].
    - eapply meq_trans; [apply mmul_ext; [apply meq_refl|apply ctrl_adj]|]. eapply meq_trans; [apply ctrl_mul|].
      eapply meq_trans; [apply mctrl_ext; eauto|apply ctrl_one].
  Qed.

  (** ** operations *)
  Lemma has_amp (x : op S) n sh : op_wf x -> op_pure x = Ok true -> op_shape x = Ok sh ->
    count role_out sh = n -> count role_in sh = n -> has_matrix x n (op_amp x).
  Proof.
    intros W P E Co Ci. destruct (conv_ok W) as [H _]. destruct (H P) as (s & Es & v & Ev & _ & Sv & V).
    rewrite E in Es. inversion Es; subst s. rewrite Co, Ci in *. exists v. auto.
  Qed.
  Lemma has_eq (x : op S) n A B : has_matrix x n A -> meq n A B -> has_matrix x n B.
  Proof. intros (v & E & Sh & V) M. exists v. split; auto. split; auto. intros o i Bo Bi. rewrite V; auto. Qed.
  Lemma has_unique (x : op S) n A B : has_matrix x n A -> has_matrix x n B -> meq n A B.
  Proof. intros (v & E & _ & V) (w & F & _ & W) o i Bo Bi. rewrite <- V, <- W; auto. congruence. Qed.
End Mat.
