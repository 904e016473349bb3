(** * the recorded cost is the cost of the tree *)
From Coq Require Import List Arith ZArith Lia Bool Permutation Sorted.
From Verif Require Import Base PathSpec UctSpec ModelOrder ModelPath ModelOpt PathProofs OptProofs OptProofs2 DPProofs DPProofs2 ModelUct UctProofs UctPath UctSwitch UctSwitch2 UctSwitch3 UctInit UctInit2 UctOps UctHist.
Import ListNotations.
Set Implicit Arguments.
Open Scope nat_scope.

Definition eqm (a b : list nat) : Prop := forall x, In x a <-> In x b.
Lemma eqm_refl a : eqm a a. Proof. intros x. tauto. Qed.
Lemma eqm_sym a b : eqm a b -> eqm b a. Proof. intros H x. now rewrite (H x). Qed.
Lemma eqm_trans a b c : eqm a b -> eqm b c -> eqm a c. Proof. intros H K x. rewrite (H x). apply K. Qed.
Lemma eqm_app a b c d : eqm a c -> eqm b d -> eqm (a ++ b) (c ++ d).
Proof. intros H K x. rewrite !in_app_iff, (H x), (K x). tauto. Qed.
Lemma eqm_app_comm a b c d : eqm a c -> eqm b d -> eqm (a ++ b) (d ++ c).
Proof. intros H K x. rewrite !in_app_iff, (H x), (K x). tauto. Qed.
Lemma existsb_In x l : existsb (Nat.eqb x) l = true <-> In x l.
Proof. rewrite existsb_exists. split; [intros (y & I & E); apply Nat.eqb_eq in E; now subst|intros I; exists x; split; auto; apply Nat.eqb_refl]. Qed.
Lemma length_eqm a b : NoDup a -> NoDup b -> eqm a b -> length a = length b.
Proof. intros H K E. apply Permutation_length, NoDup_Permutation; auto. Qed.
Lemma forallb_eqm a b r r' : eqm a b -> eqm r r' -> forallb (fun s => existsb (Nat.eqb s) r) a = forallb (fun s => existsb (Nat.eqb s) r') b.
Proof.
  intros H K. apply eq_iff_eq_true. rewrite !forallb_forall. split; intros F x I; apply existsb_In; [apply K, existsb_In, F, H|apply K, existsb_In, F, H]; auto.
Qed.
Lemma pair_flops_eqm a b r a' b' r' : eqm (a ++ b) (a' ++ b') -> eqm r r' -> pair_flops a b r = pair_flops a' b' r'.
Proof.
  intros H K. unfold pair_flops. rewrite (forallb_eqm H K). f_equal. f_equal. f_equal. apply length_eqm; try apply NoDup_nodup.
  intros x. rewrite !nodup_In, !app_assoc, !(in_app_iff _ r), !(in_app_iff _ r'), (H x), (K x). tauto.
Qed.
Lemma pair_cost_flops s0 s1 s a b r : eqm s0 a -> eqm s1 b -> eqm s r -> pair_cost s0 s1 s = pair_flops a b r.
Proof.
  intros H0 H1 H. unfold pair_cost, pair_flops.
  assert (L : length (sunion (sunion s0 s1) s) = length (nodup Nat.eq_dec (a ++ b ++ r))).
  { apply length_eqm; [apply mkset_NoDup|apply NoDup_nodup|]. intros x. rewrite nodup_In, !in_app_iff, !sunion_In, (H0 x), (H1 x), (H x). tauto. }
  rewrite L.
  assert (F : forallb (fun x => existsb (Nat.eqb x) r) (a ++ b) = negb (nonempty (sdiff (sunion s0 s1) s))).
  { apply eq_iff_eq_true. rewrite forallb_forall, negb_true_iff. split.
    - intros F. destruct (sdiff (sunion s0 s1) s) as [|x l] eqn:E; auto. exfalso.
      assert (I : In x (sdiff (sunion s0 s1) s)) by (rewrite E; simpl; auto). apply sdiff_In in I as [I1 I2]. apply sunion_In in I1.
      apply I2, H, existsb_In, F, in_app_iff. destruct I1 as [I1|I1]; [left; apply H0|right; apply H1]; auto.
    - intros E x I. apply existsb_In, H. destruct (in_dec Nat.eq_dec x s) as [J|J]; auto. exfalso.
      assert (K : In x (sdiff (sunion s0 s1) s)). { apply sdiff_In. split; auto. apply sunion_In. apply in_app_iff in I as [I|I]; [left; apply H0|right; apply H1]; auto. }
      destruct (sdiff (sunion s0 s1) s); [destruct K|discriminate]. }
  rewrite F. destruct (nonempty _); cbn [negb]; lia.
Qed.

Section Trees.
  Variables (subs : nat -> list nat) (opens : list nat).
  Lemma all_subs_swapped T T' : swapped T T' -> eqm (all_subs subs T) (all_subs subs T').
  Proof.
    induction 1; simpl; rewrite ?app_nil_r; [apply eqm_refl|apply eqm_app; auto|apply eqm_app_comm; auto].
  Qed.
  Lemma kept_ext T T' out out' : swapped T T' -> eqm out out' -> eqm (kept subs opens T out) (kept subs opens T' out').
  Proof.
    intros S E. pose proof (all_subs_swapped S) as AS.
    assert (G : eqm (filter (fun s => existsb (Nat.eqb s) out || existsb (Nat.eqb s) opens) (all_subs subs T)) (filter (fun s => existsb (Nat.eqb s) out' || existsb (Nat.eqb s) opens) (all_subs subs T'))).
    { intros x. rewrite !filter_In, !orb_true_iff, !existsb_In, (AS x), (E x). tauto. }
    destruct S; [apply eqm_refl|exact G|exact G].
  Qed.
  Lemma swapped_refl_of T T' : swapped T T' -> swapped T T.
  Proof. induction 1; [apply sw_leaf|apply sw_keep|apply sw_keep]; auto. Qed.
  Lemma flops_swapped T T' : swapped T T' -> forall out out', eqm out out' -> tree_flops subs opens T out = tree_flops subs opens T' out'.
  Proof.
    induction 1 as [i|a b a' b' Sa IHa Sb IHb|a b a' b' Sa IHa Sb IHb]; intros out out' E; auto.
    - pose proof (all_subs_swapped Sa) as Ea. pose proof (all_subs_swapped Sb) as Eb.
      assert (Oa : eqm (out ++ all_subs subs b) (out' ++ all_subs subs b')) by (apply eqm_app; auto).
      assert (Ob : eqm (out ++ all_subs subs a) (out' ++ all_subs subs a')) by (apply eqm_app; auto).
      cbn [tree_flops]. rewrite (IHa _ _ Oa), (IHb _ _ Ob). f_equal. apply pair_flops_eqm; [apply eqm_app; apply kept_ext; auto|]. apply kept_ext; auto. now apply sw_keep.
    - pose proof (all_subs_swapped Sa) as Ea. pose proof (all_subs_swapped Sb) as Eb.
      assert (Oa : eqm (out ++ all_subs subs b) (out' ++ all_subs subs b')) by (apply eqm_app; auto).
      assert (Ob : eqm (out ++ all_subs subs a) (out' ++ all_subs subs a')) by (apply eqm_app; auto).
      cbn [tree_flops]. rewrite (IHa _ _ Oa), (IHb _ _ Ob). f_equal; [lia|]. apply pair_flops_eqm; [apply eqm_app_comm; apply kept_ext; auto|]. apply kept_ext; auto. now apply sw_swap.
  Qed.
  Lemma total_swapped T T' : swapped T T' -> total_flops subs opens T = total_flops subs opens T'.
  Proof.
    intros S. destruct S as [i|a b a' b' Sa Sb|a b a' b' Sa Sb]; auto;
      pose proof (all_subs_swapped Sa) as Ea; pose proof (all_subs_swapped Sb) as Eb; cbn [total_flops];
      rewrite (flops_swapped Sa Eb), (flops_swapped Sb Ea).
    - f_equal. apply pair_flops_eqm; [apply eqm_app; apply kept_ext; auto|apply eqm_refl].
    - f_equal; [lia|]. apply pair_flops_eqm; [apply eqm_app_comm; apply kept_ext; auto|apply eqm_refl].
  Qed.
End Trees.

Fixpoint inn (t : ut) : list nat := match t with UL _ => [] | UN v l r => v :: inn l ++ inn r end.
Lemma inn_ids t x : In x (inn t) -> In x (ids t).
Proof. induction t; simpl; auto. rewrite !in_app_iff. tauto. Qed.
Lemma inn_NoDup t : NoDup (ids t) -> NoDup (inn t).
Proof.
  induction t as [i|v l IHl r IHr]; simpl; intros H; [constructor|]. inversion H as [|? ? Nv H']; subst. apply NoDup_app_iff in H' as (N1 & N2 & D).
  constructor.
  - intros I. apply Nv. rewrite in_app_iff in *. destruct I as [I|I]; apply inn_ids in I; auto.
  - apply NoDup_app_iff. split; auto. split; auto. intros x I J. apply inn_ids in I, J. apply (D x); auto.
Qed.
Lemma inn_hang n A t : forall p x, hang n A p t -> In x (ids t) -> n <= x -> In x (inn t).
Proof.
  induction t as [i|v l IHl r IHr]; simpl; intros p x H I L.
  - destruct I as [<-|[]], H. lia.
  - destruct H as (_ & _ & Hl & Hr). destruct I as [I|I]; auto. right. apply in_app_iff in I as [I|I]; apply in_app_iff; eauto.
Qed.

Section Total.
  Variable t : uct.
  Variables (lhs : list (list nat)) (rhs : list nat).
  Hypothesis U : uok t.
  Hypothesis Ho : u_open t = mkset rhs.
  Hypothesis Hl : u_leaf t = map mkset lhs.
  Let subs := fun i => nth i lhs [].
  Let A := nbs (u_adj t).
  Let n := u_n t.
  Let sub := u_sub t.
  Let P := fun x => get x (u_par t).
  Definition cv (v : nat) : Z := match get v (u_ncost t) with Some z => z | None => 0%Z end.
  Lemma seen_subs s : forall p, hang n A p s -> In (uid s) (A p) -> eqm (sv sub p (uid s)) (all_subs subs (shape s)).
  Proof.
    induction s as [i|v l IHl r IHr]; intros p H I.
    - destruct H as [H _]. destruct (g_sub (k_graph U) p i I) as (_ & _ & E & _). specialize (E H). cbn [uid shape all_subs]. fold sub in E.
      rewrite Hl, nth_error_map in E. unfold subs. destruct (nth_error lhs i) as [s|] eqn:En; [|discriminate]. inversion E as [E']. rewrite (nth_error_nth _ _ _ En). intros x. apply mkset_In.
    - destruct H as (Lv & Pm & Hl' & Hr). cbn [uid] in I. destruct (g_sub (k_graph U) p v I) as (_ & _ & _ & E). fold sub A in E. cbn [uid]. rewrite (E _ _ Pm). cbn [uid shape all_subs flat_map]. rewrite app_nil_r.
      intros x. rewrite sunion_In, in_app_iff. rewrite (fun I => IHl v Hl' I x), (fun I => IHr v Hr I x); [tauto| |]; rewrite Pm; simpl; auto.
  Qed.
  Lemma seen_kept s p out : hang n A p s -> In (uid s) (A p) -> eqm (sv sub (uid s) p) out ->
    eqm (ov n (u_open t) sub p (uid s)) (kept subs rhs (shape s) out).
  Proof.
    intros H I O. pose proof (@seen_subs s p H I) as S. unfold ov. destruct s as [i|v l r].
    - destruct H as [H _]. cbn [uid]. unfold is_leaf. rewrite (proj2 (Nat.ltb_lt i n) H). exact S.
    - destruct H as (H & _). cbn [uid] in *. unfold is_leaf. rewrite (proj2 (Nat.ltb_ge v n) H).
      intros x. cbn [shape]. unfold kept. rewrite filter_In, orb_true_iff, !existsb_In, sinter_In, sunion_In, (S x), (O x), Ho, mkset_In. cbn [shape]. tauto.
  Qed.
  Lemma tree_sum s : forall p out, hang n A p s -> pars P p s -> In (uid s) (A p) -> eqm (sv sub (uid s) p) out -> 
    zsum (map cv (inn s)) = tree_flops subs rhs (shape s) out.
  Proof.
    induction s as [i|v l IHl r IHr]; intros p out H Q I O; [reflexivity|].
    pose proof H as (Lv & Pm & Hl' & Hr). destruct Q as (Qv & Ql & Qr). cbn [inn map]. rewrite map_app. unfold zsum. cbn [fold_right]. fold (zsum (map cv (inn l) ++ map cv (inn r))).
    assert (Zapp : forall a b, zsum (a ++ b) = (zsum a + zsum b)%Z). { clear. intros a b. induction a; simpl; [reflexivity|]. unfold zsum in *. simpl. lia. }
    rewrite Zapp.
    assert (Il : In (uid l) (A v)) by (rewrite Pm; simpl; auto). assert (Ir : In (uid r) (A v)) by (rewrite Pm; simpl; auto).
    assert (Ol : eqm (sv sub (uid l) v) (out ++ all_subs subs (shape r))).
    { destruct (g_sub (k_graph U) (uid l) v) as (_ & _ & _ & E). { fold A. now apply hang_in in Hl'. } fold A sub in E. rewrite (E p (uid r)).
      - intros x. rewrite sunion_In, in_app_iff, (O x), (@seen_subs r v Hr Ir x). tauto.
      - rewrite Pm. apply perm_swap. }
    assert (Or : eqm (sv sub (uid r) v) (out ++ all_subs subs (shape l))).
    { destruct (g_sub (k_graph U) (uid r) v) as (_ & _ & _ & E). { fold A. now apply hang_in in Hr. } fold A sub in E. rewrite (E p (uid l)).
      - intros x. rewrite sunion_In, in_app_iff, (O x), (@seen_subs l v Hl' Il x). tauto.
      - rewrite Pm. apply (Permutation_app_comm [p; uid l] [uid r]). }
    rewrite (IHl v _ Hl' Ql Il Ol), (IHr v _ Hr Qr Ir Or). cbn [shape tree_flops].
    assert (C : cv v = pair_flops (kept subs rhs (shape l) (out ++ all_subs subs (shape r))) (kept subs rhs (shape r) (out ++ all_subs subs (shape l))) (kept subs rhs (PNode [shape l; shape r]) out)).
    { unfold cv. rewrite (@k_node t U v p (uid l) (uid r) Qv Pm). unfold ncv. apply pair_cost_flops.
      - apply seen_kept; auto.
      - apply seen_kept; auto.
      - apply (@seen_kept (UN v l r) p out); auto. }
    rewrite C. lia.
  Qed.
  Lemma keys_sum (l : list (nat * Z)) : NoDup (keys l) -> zsum (map snd l) = zsum (map (fun v => match get v l with Some z => z | None => 0%Z end) (keys l)).
  Proof.
    intros ND. assert (G : forall m, (forall v z, In (v, z) m -> get v l = Some z) -> zsum (map snd m) = zsum (map (fun v => match get v l with Some z => z | None => 0%Z end) (keys m))).
    { induction m as [|[v z] m IH]; intros H; [reflexivity|]. unfold zsum in *. simpl. rewrite (H v z) by (simpl; auto). rewrite IH; auto. intros w y I. apply H. right; auto. }
    apply G. intros v z I. apply In_get; auto.
  Qed.
  Lemma zsum_perm l m : Permutation l m -> zsum l = zsum m.
  Proof. unfold zsum. induction 1; simpl; lia. Qed.
  Theorem cost_ok a b : view n A a b -> (uid a, uid b) = u_root t -> u_cost t = total_flops subs rhs (vshape a b).
  Proof.
    intros V R. pose proof V as (Ha & Hb & ND & Cov & _). apply NoDup_app_iff in ND as (Na & Nb & D).
    destruct (g_root (k_graph U)) as [R1 R2]. rewrite <- R in R1, R2. cbn [fst snd] in R1, R2.
    assert (NDa : NoDup (uid b :: ids a)). { constructor; auto. intros I. apply (D _ I). apply uid_in. }
    assert (NDb : NoDup (uid a :: ids b)). { constructor; auto. apply D. apply uid_in. }
    pose proof (@pars_of n A P a (uid b) (g_par (k_graph U)) Ha NDa R1) as Pa.
    pose proof (@pars_of n A P b (uid a) (g_par (k_graph U)) Hb NDb R2) as Pb.
    assert (Ia : In (uid a) (A (uid b))) by now apply hang_in in Hb. assert (Ib : In (uid b) (A (uid a))) by now apply hang_in in Ha.
    pose proof (@seen_subs a (uid b) Ha Ia) as Sa. pose proof (@seen_subs b (uid a) Hb Ib) as Sb.
    rewrite (c_sum (k_sum U)). rewrite (keys_sum _ (c_keys (k_sum U))).
    assert (PK : Permutation (keys (u_ncost t)) (inn a ++ inn b)).
    { apply NoDup_Permutation; [apply (c_keys (k_sum U))| |].
      - apply NoDup_app_iff. split; [apply inn_NoDup; auto|]. split; [apply inn_NoDup; auto|]. intros x I J. apply inn_ids in I, J. apply (D x); auto.
      - intros x. split.
        + intros I. apply (c_inner (k_sum U)) in I. destruct I as [I1 I2]. apply Cov in I2. apply in_app_iff in I2 as [I2|I2]; apply in_app_iff; [left|right]; eapply inn_hang; eauto.
        + assert (G : forall s q, hang n A q s -> pars P q s -> In x (inn s) -> In x (keys (u_ncost t))).
          { induction s as [i|v l IHl r IHr]; intros q H Q I; [destruct I|]. destruct H as (_ & Pm & H1 & H2), Q as (Q0 & Q1 & Q2). destruct I as [<-|I].
            - pose proof (@k_node t U v q (uid l) (uid r) Q0 Pm) as E. apply get_In in E. apply in_map_iff. exists (v, ncv (u_n t) (u_open t) (u_sub t) v q (uid l) (uid r)). auto.
            - apply in_app_iff in I as [I|I]; eauto. }
          intros I. apply in_app_iff in I as [I|I]; eauto. }
    fold cv. rewrite (zsum_perm (Permutation_map cv PK)). rewrite map_app.
    assert (Zapp : forall a b, zsum (a ++ b) = (zsum a + zsum b)%Z). { clear. intros a b. induction a; simpl; [reflexivity|]. unfold zsum in *. simpl. lia. }
    rewrite Zapp. rewrite (@tree_sum a (uid b) _ Ha Pa Ia Sb), (@tree_sum b (uid a) _ Hb Pb Ib Sa).
    rewrite (k_root U). rewrite <- R. cbn [fst snd]. unfold vshape. cbn [total_flops].
    rewrite pair_cost_comm. rewrite (@pair_cost_flops _ _ _ (kept subs rhs (shape a) (all_subs subs (shape b))) (kept subs rhs (shape b) (all_subs subs (shape a))) rhs).
    - lia.
    - fold n sub. apply (@seen_kept a (uid b) _ Ha Ia Sb).
    - fold n sub. apply (@seen_kept b (uid a) _ Hb Ib Sa).
    - rewrite Ho. intros x. apply mkset_In.
  Qed.
End Total.
