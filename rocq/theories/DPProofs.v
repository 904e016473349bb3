(** * The dynamic programming optimiser returns valid paths *)
From Coq Require Import List Arith ZArith NArith Lia Bool Permutation Sorted.
From Verif Require Import Base PathSpec ModelOrder ModelPath ModelOpt ModelDP OrderProofs PathProofs OptProofs OptProofs2.
Import ListNotations.
Set Implicit Arguments.
Open Scope nat_scope.

(** ** Trees *)
Fixpoint leaves (t : ptree) : list nat :=
  match t with PLeaf i => [i] | PNode l => flat_map leaves l end.
(** every tuple has an element *)
Fixpoint full (t : ptree) : Prop :=
  match t with
  | PLeaf _ => True
  | PNode l => l <> [] /\ fold_right (fun x P => full x /\ P) True l
  end.
(** a tree with, in every tuple, the ints first in ascending order *)
Fixpoint norm (t : ptree) : ptree :=
  match t with
  | PLeaf i => PLeaf i
  | PNode l => PNode (map PLeaf (sort_key Z.of_nat (tree_ints l))
                      ++ flat_map (fun x => match x with PLeaf _ => [] | PNode _ => [norm x] end) l)
  end.
Lemma full_Forall l : fold_right (fun x P => full x /\ P) True l <-> Forall full l.
Proof.
  induction l as [|x r IH]; simpl; [split; auto|]. rewrite IH. split; intros H.
  - constructor; tauto.
  - inversion H; auto.
Qed.
Lemma norm_node l : norm (PNode l) = PNode (map PLeaf (sort_key Z.of_nat (tree_ints l)) ++ map (fun m => norm (PNode m)) (tree_nodes l)).
Proof.
  cbn [norm]. f_equal. f_equal. unfold tree_nodes. induction l as [|[i|m] r IH]; simpl; auto. f_equal; auto.
Qed.

(** ** Strictly ascending lists *)
Lemma asc_ext (a : list nat) : forall b, StronglySorted lt a -> StronglySorted lt b -> (forall x, In x a <-> In x b) -> a = b.
Proof.
  induction a as [|x r IH]; intros [|y s] Ha Hb E; auto.
  - destruct (proj2 (E y)). now left.
  - destruct (proj1 (E x)). now left.
  - apply StronglySorted_inv in Ha as [Ha Fa]. apply StronglySorted_inv in Hb as [Hb Fb]. rewrite Forall_forall in Fa, Fb.
    assert (x = y).
    { destruct (proj1 (E x) (or_introl eq_refl)) as [|Hx]; auto. destruct (proj2 (E y) (or_introl eq_refl)) as [|Hy]; auto.
      specialize (Fa _ Hy). specialize (Fb _ Hx). lia. }
    subst y. f_equal. apply IH; auto. intros z. split; intros Hz.
    + destruct (proj1 (E z) (or_intror Hz)) as [|]; auto. subst z. specialize (Fa _ Hz). lia.
    + destruct (proj2 (E z) (or_intror Hz)) as [|]; auto. subst z. specialize (Fb _ Hz). lia.
Qed.
Definition rank (t : list nat) (i : nat) : nat := length (filter (fun q => q <? i) t).
Lemma asc_rank t x : StronglySorted lt t -> In x t -> nth_error t (rank t x) = Some x.
Proof.
  unfold rank. induction t as [|y r IH]; intros H Hx; [destruct Hx|].
  apply StronglySorted_inv in H as [H F]. rewrite Forall_forall in F. simpl. destruct (y <? x) eqn:E.
  - apply Nat.ltb_lt in E. simpl. apply IH; auto. destruct Hx; auto. lia.
  - apply Nat.ltb_ge in E. destruct Hx as [->|Hx]; [|specialize (F _ Hx); lia].
    rewrite filter_nil; auto. intros q Hq. specialize (F _ Hq). apply Nat.ltb_ge. lia.
Qed.
Lemma asc_insert t i : StronglySorted lt t -> ~ In i t -> firstn (rank t i) t ++ i :: skipn (rank t i) t = sins i t.
Proof.
  unfold rank. induction t as [|y r IH]; intros H N; auto. apply StronglySorted_inv in H as [H F].
  rewrite Forall_forall in F. simpl. destruct (y <? i) eqn:E.
  - apply Nat.ltb_lt in E. simpl. destruct (i <? y) eqn:E2; [apply Nat.ltb_lt in E2; lia|]. destruct (i =? y) eqn:E3; [apply Nat.eqb_eq in E3; lia|].
    f_equal. apply IH; auto. intros G. apply N. now right.
  - apply Nat.ltb_ge in E. assert (i <> y) by (intros ->; apply N; now left).
    rewrite filter_nil by (intros q Hq; specialize (F _ Hq); apply Nat.ltb_ge; lia).
    simpl. destruct (i <? y) eqn:E2; auto. apply Nat.ltb_ge in E2. lia.
Qed.
Lemma asc_filter f t : StronglySorted lt t -> StronglySorted lt (filter f t).
Proof.
  induction 1 as [|x r H IH F]; simpl; [constructor|]. destruct (f x); auto. constructor; auto.
  rewrite Forall_forall in *. intros y Hy. apply filter_In in Hy. apply F. tauto.
Qed.
Lemma asc_NoDup t : StronglySorted lt t -> NoDup t.
Proof.
  induction 1 as [|x r H IH F]; constructor; auto. rewrite Forall_forall in F. intros G. specialize (F _ G). lia.
Qed.
Lemma sort_asc l : NoDup l -> StronglySorted lt (sort_key Z.of_nat l).
Proof.
  intros N. pose proof (sort_key_sorted l) as H. assert (N2 : NoDup (sort_key Z.of_nat l)).
  { eapply Permutation_NoDup; [|exact N]. apply Permutation_sym, sort_key_perm. }
  induction H as [|x r H IH F]; constructor; [apply IH; now inversion N2|]. inversion N2; subst.
  rewrite Forall_forall in *. intros y Hy. specialize (F _ Hy). assert (x <> y) by congruence. lia.
Qed.

(** ** place *)
Lemma NoDup_app2 (a b : list nat) : NoDup a -> NoDup b -> (forall x, In x a -> ~ In x b) -> NoDup (a ++ b).
Proof. intros. apply NoDup_app_iff. auto. Qed.
Lemma place_eq is : forall t, StronglySorted lt t -> StronglySorted lt is -> (forall x, In x is -> ~ In x t) ->
  let q := place is t in
  StronglySorted lt (snd q) /\ (forall x, In x (snd q) <-> In x is \/ In x t) /\ fst q = map (rank (snd q)) is.
Proof.
  induction is as [|i r IH]; intros t Ht His Hd; cbn [place fst snd map].
  - split; auto. split; auto. intros x. simpl. tauto.
  - apply StronglySorted_inv in His as [Hr F]. rewrite Forall_forall in F.
    fold (rank t i). rewrite asc_insert by (auto; apply Hd; now left).
    specialize (IH (sins i t) (sins_sorted i Ht) Hr). cbv zeta in IH.
    destruct IH as [A [B C]].
    { intros x Hx. rewrite sins_In. intros [->|G]; [specialize (F _ Hx); lia|]. apply (Hd x); auto. now right. }
    split; auto. split; [intros x; rewrite B, sins_In; cbn [In]; intuition congruence|].
    rewrite C. f_equal. unfold rank. set (t' := snd _) in *.
    assert (E : filter (fun q => q <? i) t = filter (fun q => q <? i) t').
    { apply asc_ext; try apply asc_filter; auto. intros x. rewrite !filter_In, B, sins_In. split; [tauto|].
      intros [[G|[->|G]] G2]; auto; apply Nat.ltb_lt in G2; [|lia]. specialize (F _ G). lia. }
    now rewrite E.
Qed.
Lemma place_ok is t : StronglySorted lt t -> StronglySorted lt is -> (forall x, In x is -> ~ In x t) ->
  let q := place is t in
  StronglySorted lt (snd q) /\ (forall x, In x (snd q) <-> In x is \/ In x t) /\
  picks (fst q) (snd q) = Some is /\ keep_except (fst q) (snd q) = t /\ NoDup (fst q) /\ length (fst q) = length is /\
  length (snd q) = length is + length t.
Proof.
  intros Ht His Hd q. destruct (place_eq Ht His Hd) as [A [B C]]. fold q in A, B, C.
  assert (P : picks (fst q) (snd q) = Some is).
  { rewrite C. assert (I : incl is (snd q)) by (intros x Hx; apply B; auto). revert I A. generalize (snd q). clear. intros t' I A. revert I.
    induction is as [|i r IH]; simpl; auto. intros I. rewrite asc_rank; auto; [|apply I; now left].
    rewrite IH; auto. intros x Hx. apply I. now right. }
  split; auto. split; auto. split; auto. split.
  { rewrite (@keep_picks nat _ _ _ _ (asc_NoDup A) P). apply asc_ext; auto; [now apply asc_filter|].
    intros x. rewrite filter_In, B, negb_true_iff. split.
    - intros [[G|G] M]; auto. apply mem_In in G. congruence.
    - intros G. split; auto. destruct (mem x is) eqn:M; auto. apply mem_In in M. destruct (Hd _ M G). }
  split.
  { rewrite C. clear C P. assert (I : incl is (snd q)) by (intros x Hx; apply B; auto).
    pose proof (asc_NoDup His) as N. revert A I N. generalize (snd q). clear. intros t' A I N. induction is as [|i r IH]; simpl; constructor.
    - intros G. apply in_map_iff in G as [j [E G]]. inversion N; subst.
      pose proof (asc_rank _ A (I i (or_introl eq_refl))) as E1. pose proof (asc_rank _ A (I j (or_intror G))) as E2.
      rewrite E in E2. rewrite E1 in E2. injection E2 as ->. auto.
    - inversion N; subst. apply IH; auto. intros x Hx. apply I. now right. }
  split; [rewrite C; apply map_length|].
  rewrite <- app_length. apply Permutation_length. apply NoDup_Permutation.
  - now apply asc_NoDup.
  - pose proof (asc_NoDup His). pose proof (asc_NoDup Ht). apply NoDup_app2; auto.
  - intros x. rewrite in_app_iff. apply B.
Qed.

(** ** Positions in two lists put together *)
Lemma picks_app2 {A} a : forall b (l : list A) p q, picks a l = Some p -> picks b l = Some q -> picks (a ++ b) l = Some (p ++ q).
Proof.
  induction a as [|i r IH]; intros b l p q; simpl.
  - intros [= <-]. auto.
  - destruct (nth_error l i) eqn:E; [|discriminate]. destruct (picks r l) eqn:E2; [|discriminate]. intros [= <-] Hq.
    now rewrite (IH _ _ _ _ E2 Hq).
Qed.
Lemma picks_left {A} a : forall (l m : list A) p, picks a l = Some p -> picks a (l ++ m) = Some p.
Proof.
  induction a as [|i r IH]; intros l m p; simpl; auto.
  destruct (nth_error l i) eqn:E; [|discriminate]. destruct (picks r l) eqn:E2; [|discriminate]. intros [= <-].
  rewrite nth_error_app1, E by (apply nth_error_Some; congruence). now rewrite (IH _ _ _ E2).
Qed.
Lemma picks_right {A} (m l : list A) : picks (map (fun k => length l + k) (seq 0 (length m))) (l ++ m) = Some m.
Proof.
  assert (G : forall (r d : list A), d ++ r = m -> picks (map (fun k => length l + k) (seq (length d) (length r))) (l ++ m) = Some r).
  { intros r. induction r as [|x r IH]; intros d E; simpl; auto.
    rewrite nth_error_app2 by lia. replace (length l + length d - length l) with (length d) by lia.
    rewrite <- E at 1. rewrite nth_error_app2 by lia. rewrite Nat.sub_diag. simpl.
    specialize (IH (d ++ [x])). rewrite app_length in IH. simpl in IH. rewrite Nat.add_1_r in IH. rewrite IH; auto. rewrite <- app_assoc. auto. }
  apply (G m []). auto.
Qed.
Lemma keep_app {A} (l m : list A) : forall k ids, keep_from k ids (l ++ m) = keep_from k ids l ++ keep_from (k + length l) ids m.
Proof.
  induction l as [|x r IH]; intros k ids; simpl; [now rewrite Nat.add_0_r|]. rewrite IH, Nat.add_succ_r. simpl.
  destruct (mem k ids); auto.
Qed.
Lemma keep_all {A} (l : list A) : forall k ids, (forall i, k <= i < k + length l -> In i ids) -> keep_from k ids l = [].
Proof.
  induction l as [|x r IH]; intros k ids H; simpl; auto. replace (mem k ids) with true.
  - apply IH. intros i Hi. apply H. simpl. lia.
  - symmetry. apply mem_In. apply H. simpl. lia.
Qed.
Lemma keep_none {A} (l : list A) : forall k ids, (forall i, k <= i < k + length l -> ~ In i ids) -> keep_from k ids l = l.
Proof.
  induction l as [|x r IH]; intros k ids H; simpl; auto. destruct (mem k ids) eqn:E.
  - apply mem_In in E. destruct (H k); auto. simpl. lia.
  - f_equal. apply IH. intros i Hi. apply H. simpl. lia.
Qed.
Lemma keep_same {A} (l : list A) : forall k a b, (forall i, k <= i < k + length l -> (In i a <-> In i b)) -> keep_from k a l = keep_from k b l.
Proof.
  induction l as [|x r IH]; intros k a b H; simpl; auto.
  assert (E : mem k a = mem k b).
  { destruct (mem k a) eqn:E1, (mem k b) eqn:E2; auto.
    - apply mem_In in E1. apply H in E1; [|simpl; lia]. apply mem_In in E1. congruence.
    - apply mem_In in E2. apply H in E2; [|simpl; lia]. apply mem_In in E2. congruence. }
  rewrite E. rewrite (IH (S k) a b); auto. intros i Hi. apply H. simpl. lia.
Qed.

(** ** _tree_to_sequence *)
Definition nodeleaves (j : list ptree) : list nat := flat_map leaves j.
Lemma leaves_split j : Permutation (nodeleaves j) (tree_ints j ++ flat_map nodeleaves (tree_nodes j)).
Proof.
  unfold nodeleaves, tree_ints, tree_nodes. induction j as [|[i|m] r IH]; simpl; auto.
  rewrite IH. rewrite !app_assoc. apply Permutation_app_tail. apply Permutation_app_comm.
Qed.
Lemma tuples_split j : list_sum (map tuples j) = list_sum (map (fun m => tuples (PNode m)) (tree_nodes j)).
Proof. unfold tree_nodes. induction j as [|[i|m] r IH]; simpl; auto. Qed.
Lemma full_nodes j : Forall full j -> Forall (fun m => full (PNode m)) (tree_nodes j).
Proof. unfold tree_nodes. induction 1 as [|[i|m] r H F IH]; simpl; auto. Qed.
Lemma node_count j : length j = length (tree_ints j) + length (tree_nodes j).
Proof. unfold tree_ints, tree_nodes. induction j as [|[i|m] r IH]; simpl; lia. Qed.

Lemma t2s_ok fuel : forall c t s,
  list_sum (map (fun m => tuples (PNode m)) c) <= fuel -> Forall (fun m => full (PNode m)) c ->
  StronglySorted lt t -> NoDup (t ++ flat_map nodeleaves c) ->
  exists s' t', t2s fuel c t s = Ok s' /\ StronglySorted lt t' /\ Permutation t' (t ++ flat_map nodeleaves c) /\
    lin_run PNode (map PLeaf t') s' = lin_run PNode (map PLeaf t ++ map (fun m => norm (PNode m)) (rev c)) s /\
    (valid_lin (length t + length c) s -> valid_lin (length t') s').
Proof.
  induction fuel as [|fuel IH]; intros c t s Hf Hfull Ht Hn; destruct c as [|j c]; cbn [t2s].
  1, 3: exists s, t; split; auto; split; auto; split; [rewrite app_nil_r; auto|]; split; [simpl; now rewrite app_nil_r|cbn [length]; now rewrite Nat.add_0_r].
  { simpl in Hf. lia. }
  inversion Hfull as [|? ? Hj Hc]; subst. destruct Hj as [Hj0 Hj]. apply full_Forall in Hj.
  set (is := sort_key Z.of_nat (tree_ints j)). set (os := tree_nodes j).
  assert (Pis : Permutation is (tree_ints j)) by apply sort_key_perm.
  assert (Hn2 : NoDup (t ++ (tree_ints j ++ flat_map nodeleaves os) ++ flat_map nodeleaves c)).
  { eapply Permutation_NoDup; [|exact Hn]. apply Permutation_app_head. cbn [flat_map]. apply Permutation_app_tail. apply leaves_split. }
  assert (Dis : forall x, In x is -> ~ In x t).
  { intros x Hx Hx2. apply (Permutation_in _ Pis) in Hx. revert Hn2. clear - Hx Hx2. intros N.
    induction t as [|y r IHt]; [destruct Hx2|]. simpl in N. inversion N; subst. destruct Hx2 as [->|]; auto.
    apply H1. rewrite !in_app_iff. auto. }
  assert (His : StronglySorted lt is).
  { apply sort_asc. apply NoDup_app_remove_l in Hn2. apply NoDup_app_remove_r in Hn2. now apply NoDup_app_remove_r in Hn2. }
  destruct (place_ok Ht His Dis) as [At [Bt [Pk [Kp [Np [Lp Lt]]]]]]. set (q := place is t) in *.
  set (s0 := fst q ++ map (fun k => length (snd q) + length c + k) (seq 0 (length os))).
  assert (Pt : Permutation (snd q) (is ++ t)).
  { apply NoDup_Permutation; [now apply asc_NoDup| |intros x; rewrite in_app_iff; apply Bt].
    apply NoDup_app2; auto using asc_NoDup. }
  destruct (IH (rev os ++ c) (snd q) (s0 :: s)) as [s' [t' [E [S' [P' [R V]]]]]]; auto.
  - rewrite map_app, list_sum_app, map_rev. cbn [map] in Hf. change (list_sum (?x :: ?l)) with (x + list_sum l) in Hf.
    replace (list_sum (rev (map (fun m => tuples (PNode m)) os))) with (list_sum (map tuples j)).
    + cbn [tuples] in Hf |- *. change (fun m => S (list_sum (map tuples m))) with (fun m => tuples (PNode m)) in *. 
      revert Hf. generalize (list_sum (map (fun m => tuples (PNode m)) c)). intros. lia.
    + rewrite tuples_split. fold os. generalize (map (fun m => tuples (PNode m)) os). intros l.
      induction l as [|x r IHl]; simpl; auto. rewrite list_sum_app, IHl. simpl. lia.
  - apply Forall_app. split; auto. apply Forall_rev. now apply full_nodes.
  - eapply Permutation_NoDup; [|exact Hn2]. rewrite flat_map_app.
    assert (Permutation (flat_map nodeleaves (rev os)) (flat_map nodeleaves os)).
    { apply Permutation_flat_map. apply Permutation_sym, Permutation_rev. }
    rewrite H, Pt, Pis. rewrite !app_assoc. apply Permutation_app_tail, Permutation_app_tail. apply Permutation_app_comm.
  - exists s', t'. split; auto. split; auto. split.
    { rewrite P', flat_map_app, Pt, Pis. cbn [flat_map]. rewrite (leaves_split j). fold os.
      assert (Permutation (flat_map nodeleaves (rev os)) (flat_map nodeleaves os)).
      { apply Permutation_flat_map. apply Permutation_sym, Permutation_rev. }
      rewrite H. rewrite !app_assoc. apply Permutation_app_tail, Permutation_app_tail. apply Permutation_app_comm. }
    set (nm := fun m => norm (PNode m)) in *.
    assert (Eops : map PLeaf (snd q) ++ map nm (rev (rev os ++ c)) = map PLeaf (snd q) ++ map nm (rev c) ++ map nm os).
    { rewrite rev_app_distr, rev_involutive, map_app. auto. }
    assert (Lq : length (map PLeaf (snd q) ++ map nm (rev c)) = length (snd q) + length c) by (rewrite app_length, !map_length, rev_length; auto).
    assert (Rg : forall i, In i (fst q) -> i < length (snd q)).
    { pose proof (picks_range _ _ Pk) as F. rewrite Forall_forall in F. auto. }
    split.
    { rewrite R. rewrite Eops. cbn [lin_run].
      assert (E1 : picks s0 (map PLeaf (snd q) ++ map nm (rev c) ++ map nm os) = Some (map PLeaf is ++ map nm os)).
      { apply picks_app2.
        - apply picks_left. now apply picks_map.
        - rewrite app_assoc. rewrite <- Lq. rewrite <- (map_length nm os). apply picks_right. }
      rewrite E1. f_equal. rewrite app_assoc. unfold keep_except. rewrite keep_app, keep_app.
      rewrite (@keep_same _ (map PLeaf (snd q)) 0 s0 (fst q)); cycle 1.
      { rewrite map_length. intros i Hi. unfold s0. rewrite in_app_iff, in_map_iff. split; auto. intros [G|[k [<- G]]]; auto. lia. }
      rewrite keep_map. change (keep_from 0 (fst q) (snd q)) with (keep_except (fst q) (snd q)). rewrite Kp.
      rewrite keep_none; cycle 1.
      { rewrite !map_length, rev_length. intros i Hi. unfold s0. rewrite in_app_iff, in_map_iff. intros [G|[k [<- G]]]; [apply Rg in G; lia|lia]. }
      rewrite (keep_all (map nm os)); cycle 1.
      { rewrite Lq, map_length. intros i Hi. unfold s0. rewrite in_app_iff, in_map_iff. right. exists (i - (length (snd q) + length c)).
        split; [lia|]. apply in_seq. lia. }
      rewrite app_nil_r. rewrite <- app_assoc. f_equal. cbn [rev]. rewrite map_app. f_equal. cbn [map]. unfold nm at 2.
      rewrite norm_node. reflexivity. }
    intros Hv. apply V. cbn [valid_lin]. rewrite app_length, rev_length.
    assert (Ls0 : length s0 = length is + length os) by (unfold s0; rewrite app_length, map_length, seq_length; lia).
    assert (Lj : length is + length os = length j).
    { rewrite (node_count j), (Permutation_length Pis). auto. }
    split. { intros G. rewrite G in Ls0. simpl in Ls0. destruct j; [now apply Hj0|]. simpl in Lj. lia. }
    split.
    { apply NoDup_app2; auto.
      - apply FinFun.Injective_map_NoDup; [intros a b; lia|apply seq_NoDup].
      - intros i Hi G. apply in_map_iff in G as [k [<- G]]. apply Rg in Hi. lia. }
    split.
    { apply Forall_app. split; apply Forall_forall; intros i Hi; [apply Rg in Hi; lia|].
      apply in_map_iff in Hi as [k [<- G]]. apply in_seq in G. lia. }
    cbn [length] in Hv. rewrite Ls0.
    replace (length (snd q) + (length os + length c) - (length is + length os) + 1) with (length t + S (length c)) by lia. auto.
Qed.

(** the sequence contracts exactly the tree *)
Theorem tree_to_sequence_ok n t : full t -> Permutation (leaves t) (seq 0 n) ->
  exists p, tree_to_sequence t = Ok p /\ valid_lin n p /\ lin_tree n p = Some (norm t).
Proof.
  intros Hf P. destruct t as [i|l].
  - exists []. split; auto. apply Permutation_length_1_inv in P. destruct n as [|[|n]]; try discriminate. simpl in P.
    injection P as <-. split; reflexivity.
  - destruct (@t2s_ok (tuples (PNode l)) [l] [] []) as [s' [t' [E [S' [P' [R V]]]]]].
    + simpl. lia.
    + repeat constructor; apply Hf.
    + constructor.
    + simpl. rewrite app_nil_r. eapply Permutation_NoDup; [apply Permutation_sym; exact P|apply seq_NoDup].
    + exists s'. split; auto.
      assert (t' = seq 0 n).
      { apply asc_ext; auto.
        - clear. generalize 0. induction n as [|n IH]; intros k; simpl; constructor; auto. apply Forall_forall. intros x Hx. apply in_seq in Hx. lia.
        - intros x. simpl in P'. rewrite app_nil_r in P'. rewrite P'. now rewrite <- P. }
      subst t'. rewrite seq_length in V. split; [now apply V|]. unfold lin_tree. rewrite R. reflexivity.
Qed.
