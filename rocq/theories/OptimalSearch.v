(** * The exhaustive search explores every pairwise tree that could be cheaper *)
From Coq Require Import List Arith ZArith Lia Bool Permutation.
From Verif Require Import Base PathSpec ModelOrder OrderProofs ModelPath PathProofs ModelOpt OptProofs OptProofs2 DPProofs OptimalSpec OptimalProofs.
Import ListNotations.
Set Implicit Arguments.
Open Scope nat_scope.

Definition size_in (sizes : list (nat * Z)) (x : nat) : Z := match get x sizes with Some z => z | None => 1%Z end.

Lemma foldM_all {A B} (f : B -> A -> res B) (P : B -> Prop) (R : B -> B -> Prop) (Q : A -> B -> Prop) l :
  (forall b, R b b) -> (forall a b c, R a b -> R b c -> R a c) -> (forall x b c, Q x b -> R b c -> Q x c) ->
  forall b, P b -> (forall b x, In x l -> P b -> exists b', f b x = Ok b' /\ P b' /\ R b b' /\ Q x b') ->
  exists b', foldM f b l = Ok b' /\ P b' /\ R b b' /\ forall x, In x l -> Q x b'.
Proof.
  intros Rr Rt Qr. induction l as [|x r IH]; intros b Hb H; simpl.
  - exists b. split; auto. split; auto. split; auto. intros _ [].
  - destruct (H b x) as (b1 & -> & P1 & R1 & Q1); simpl; auto. cbn [bind].
    destruct (IH b1 P1) as (b2 & E & P2 & R2 & Q2); [intros; apply H; simpl; auto|].
    exists b2. split; auto. split; auto. split; [eauto|]. intros y [<-|I]; eauto.
Qed.
Lemma combos_all {A} (l : list A) x y : In x l -> In y l -> x <> y -> In (x, y) (combos l) \/ In (y, x) (combos l).
Proof.
  induction l as [|z r IH]; intros Ix Iy N; [destruct Ix|]. cbn [combos]. rewrite !in_app_iff.
  destruct Ix as [->|Ix], Iy as [->|Iy]; [congruence|left; left; apply in_map; auto|right; left; apply in_map; auto|].
  destruct (IH Ix Iy N); auto.
Qed.
Lemma ssa_run_app {A} (node : list A -> A) p : forall table q tb, ssa_run node table p = Some tb ->
  ssa_run node table (p ++ q) = ssa_run node tb q.
Proof.
  induction p as [|s p IH]; intros table q tb E; simpl in *; [inversion E; auto|].
  destruct (picks s table); [|discriminate]. auto.
Qed.

Section Search.
  Variable ord : list nat -> list nat.
  Hypothesis ord_perm : forall l, Permutation (ord l) l.
  Variables (sizes : list (nat * Z)) (output : nset) (inputs : list nset).
  Hypothesis Kn : Forall (known sizes) inputs.
  Hypothesis Pos : forall x z, get x sizes = Some z -> (0 <= z)%Z.
  Hypothesis NH : no_hyperedges output inputs.
  Let n := length inputs.
  Let size := size_in sizes.
  Let ti := tensor_indices output inputs.
  Let step := step_flops size output inputs.
  Let tf := tree_flops size output inputs.
  Let cost := cost size output inputs.
  Lemma size_ge x : (0 <= size x)%Z.
  Proof. unfold size, size_in. destruct (get x sizes) eqn:E; [eapply Pos; eauto|lia]. Qed.

  Definition tr_at (tr : list ptree) (r : nat) : ptree := nth r tr (PLeaf 0).
  Definition forest (tr : list ptree) (rem : list nat) : list ptree := map (tr_at tr) rem.
  Record good (tr : list ptree) (tb : list nset) (rem : list nat) : Prop := Good {
    gd_len : length tr = length tb;
    gd_nodup : NoDup rem;
    gd_range : forall r, In r rem -> r < length tb;
    gd_known : Forall (known sizes) tb;
    gd_ind : forall r, In r rem -> same (nth r tb []) (ti (tr_at tr r));
    gd_bin : forall r, In r rem -> binary (tr_at tr r);
    gd_part : Permutation (flat_map tree_leaves (forest tr rem)) (seq 0 n)
  }.
  Lemma flat_perm (F G : list ptree) : Permutation F G -> Permutation (flat_map tree_leaves F) (flat_map tree_leaves G).
  Proof.
    induction 1 as [|x l l' P IH|x y l|l m o P IH P' IH']; simpl; auto; [apply Permutation_app; auto| |etransitivity; eauto].
    rewrite !app_assoc. apply Permutation_app_tail, Permutation_app_comm.
  Qed.
  Lemma take_two (i j : nat) rem : NoDup rem -> In i rem -> In j rem -> i <> j ->
    Permutation rem (i :: j :: filter (fun x => negb (mem x [i; j])) rem).
  Proof.
    intros N Ii Ij D. apply NoDup_Permutation; auto.
    - constructor; [|constructor].
      + intros [E|E]; [congruence|]. apply filter_In in E as [_ E]. apply negb_true_iff, mem_false in E. apply E. simpl; auto.
      + intros E. apply filter_In in E as [_ E]. apply negb_true_iff, mem_false in E. apply E. simpl; auto.
      + apply NoDup_filter; auto.
    - intros x. cbn [In]. rewrite filter_In, negb_true_iff, mem_false. cbn [In]. split.
      + intros I. destruct (Nat.eq_dec i x), (Nat.eq_dec j x); tauto.
      + intros [<-|[<-|[I _]]]; auto.
  Qed.
  Lemma good_apart tr tb rem i j : good tr tb rem -> In i rem -> In j rem -> i <> j -> apart inputs (tr_at tr i) (tr_at tr j).
  Proof.
    intros G Ii Ij D. pose proof (take_two (gd_nodup G) Ii Ij D) as P.
    assert (Q : Permutation (flat_map tree_leaves (forest tr (i :: j :: filter (fun x => negb (mem x [i; j])) rem))) (seq 0 n)).
    { rewrite <- (gd_part G). apply flat_perm, Permutation_map. symmetry. exact P. }
    cbn [forest map flat_map] in Q. rewrite app_assoc in Q. split.
    - pose proof (Permutation_NoDup (Permutation_sym Q) (seq_NoDup n 0)) as N. revert N. generalize (tree_leaves (tr_at tr i) ++ tree_leaves (tr_at tr j)).
      intros l. induction l as [|y r IH]; intros N; [constructor|]. simpl in N. inversion N; subst. constructor; auto. intros I. apply H1, in_or_app; auto.
    - intros x I. assert (In x (seq 0 n)) as S by (eapply Permutation_in; [exact Q|apply in_or_app; auto]). apply in_seq in S. exact (proj2 S).
  Qed.
  (** an index of a pair is kept by the program when it is still needed *)
  Lemma keep_needed tr tb rem i j q x : good tr tb rem -> In i rem -> In j rem -> i <> j ->
    picks (filter (fun x => negb (mem x [i; j])) rem) tb = Some q ->
    In x (ti (tr_at tr i)) \/ In x (ti (tr_at tr j)) ->
    mem x (mkset (output ++ concat q)) = needed output inputs (PNode [tr_at tr i; tr_at tr j]) x.
  Proof.
    intros G Ii Ij D Pq H. apply bool_iff. rewrite mem_In, mkset_In, in_app_iff, needed_iff, leaves_two.
    pose proof (take_two (gd_nodup G) Ii Ij D) as P.
    assert (Q : Permutation (flat_map tree_leaves (forest tr (i :: j :: filter (fun x => negb (mem x [i; j])) rem))) (seq 0 n)).
    { rewrite <- (gd_part G). apply flat_perm, Permutation_map. symmetry. exact P. }
    cbn [forest map flat_map] in Q. rewrite app_assoc in Q. pose proof (Permutation_NoDup (Permutation_sym Q) (seq_NoDup n 0)) as N.
    assert (Dj : forall y, In y (tree_leaves (tr_at tr i) ++ tree_leaves (tr_at tr j)) -> ~ In y (flat_map tree_leaves (map (tr_at tr) (filter (fun x => negb (mem x [i; j])) rem)))).
    { intros y I1 I2. apply in_split in I1 as (l1 & l2 & E). rewrite E, <- app_assoc in N. simpl in N. apply NoDup_remove_2 in N. apply N. rewrite !in_app_iff. auto. }
    split; (intros [I|I]; [left; auto|right]).
    - apply in_concat in I as (s & Is & Ix). destruct (picks_in Pq Is) as (r & Ir & Nr). pose proof Ir as Ir'. apply filter_In in Ir as [Ir _].
      apply nth_error_nth with (d := []) in Nr. rewrite <- Nr in Ix. apply (gd_ind G r Ir) in Ix. apply ti_leaf in Ix as (k & Ik & Xk).
      assert (Ikf : In k (flat_map tree_leaves (map (tr_at tr) (filter (fun x => negb (mem x [i; j])) rem)))) by (apply in_flat_map; exists (tr_at tr r); split; auto; apply in_map; auto).
      exists k. split; [|split; auto].
      + assert (In k (seq 0 n)) as S by (eapply Permutation_in; [exact Q|apply in_or_app; auto]). apply in_seq in S. exact (proj2 S).
      + intros I. eapply Dj; eauto.
    - destruct I as (k & Lk & Nk & Xk).
      assert (S : In k ((tree_leaves (tr_at tr i) ++ tree_leaves (tr_at tr j)) ++ flat_map tree_leaves (map (tr_at tr) (filter (fun x => negb (mem x [i; j])) rem)))).
      { eapply Permutation_in; [symmetry; exact Q|]. apply in_seq. split; [lia|exact Lk]. }
      apply in_app_or in S as [S|S]; [contradiction|]. apply in_flat_map in S as (t & It & Ik). apply in_map_iff in It as (r & <- & Ir).
      pose proof Ir as Ir'. apply filter_In in Ir as [Ir Nr].
      assert (L : r < length tb) by (apply (gd_range G); auto).
      apply in_concat. exists (nth r tb []). split; [eapply picks_in_rev; eauto; apply nth_error_nth'; auto|].
      apply (gd_ind G r Ir).
      destruct (tr_at tr r) as [k'|l] eqn:Et; [destruct Ik as [<-|[]]; exact Xk|].
      apply ti_node. split; [|exists k; auto]. apply needed_iff.
      assert (K : exists m, In m (tree_leaves (tr_at tr i) ++ tree_leaves (tr_at tr j)) /\ In x (indices_of inputs m)).
      { destruct H as [H|H]; apply ti_leaf in H as (m & Im & Xm); exists m; (split; [apply in_or_app; auto|auto]). }
      destruct K as (m & Im & Xm). right. exists m. split; [|split; auto].
      + assert (In m (seq 0 n)) as S by (eapply Permutation_in; [exact Q|apply in_or_app; auto]). apply in_seq in S. exact (proj2 S).
      + intros I. eapply Dj; [exact Im|]. apply in_flat_map. exists (tr_at tr r). split; [apply in_map; auto|rewrite Et; auto].
  Qed.
  Definition right_for (w : nset * Z) (a b : ptree) : Prop :=
    same (fst w) (ti (PNode [a; b])) /\ snd w = step a b /\ known sizes (fst w).
  Lemma calc_true tr tb rem i j : good tr tb rem -> In i rem -> In j rem -> i <> j ->
    exists w, calc_k12_flops sizes output tb rem i j = Ok w /\ right_for w (tr_at tr i) (tr_at tr j).
  Proof.
    intros G Ii Ij D. unfold calc_k12_flops.
    destruct (at_ok tb (gd_range G _ Ii)) as (k1 & -> & N1). cbn [bind].
    destruct (at_ok tb (gd_range G _ Ij)) as (k2 & -> & N2). cbn [bind].
    destruct (@mapM_at _ tb (filter (fun x => negb (mem x [i; j])) rem)) as (q & E & Pq).
    { apply Forall_forall. intros x I. apply filter_In in I as [I _]. apply (gd_range G); auto. }
    rewrite E. cbn [bind]. pose proof (gd_known G) as K. rewrite Forall_forall in K.
    assert (K1 : known sizes k1) by (eapply K, nth_error_In; eauto). assert (K2 : known sizes k2) by (eapply K, nth_error_In; eauto).
    assert (S1 : same k1 (ti (tr_at tr i))) by (rewrite <- (nth_error_nth _ _ [] N1); apply (gd_ind G); auto).
    assert (S2 : same k2 (ti (tr_at tr j))) by (rewrite <- (nth_error_nth _ _ [] N2); apply (gd_ind G); auto).
    pose proof (fun x => @keep_needed tr tb rem i j q x G Ii Ij D Pq) as Kd.
    set (keep := mkset (output ++ concat q)) in *.
    unfold flop_count. rewrite size_by_dict_spec by (apply known_union; auto). cbn [bind].
    eexists. split; [reflexivity|]. unfold right_for. cbn [fst snd]. split; [|split].
    - intros x. rewrite sinter_In, sunion_In, (S1 x), (S2 x). unfold ti. pose proof (good_apart G Ii Ij D) as A.
      rewrite (@ti_pair size output inputs); [|apply (apart_disj A)|apply A]. fold ti. split.
      + intros [Ha Hb]. split; [|auto]. rewrite <- Kd; auto. apply mem_In. auto.
      + intros [Ha Hb]. split; [auto|]. rewrite <- Kd in Ha; auto. apply mem_In in Ha. auto.
    - unfold step. rewrite (@step_gen size output inputs (tr_at tr i) (tr_at tr j) k1 k2 (fun x => mem x keep)); auto. f_equal.
      + apply (@prod_same size inputs); [apply mkset_NoDup|apply NoDup_nodup|]. intros x. rewrite sunion_In, nodup_In, in_app_iff. tauto.
      + replace (nonempty (sdiff (sinter k1 k2) keep)) with (existsb (fun x => mem x k2 && negb (mem x keep)) k1); [destruct (existsb _ _); reflexivity|].
        apply bool_iff. rewrite existsb_exists. split.
        * intros (x & I & H). apply andb_true_iff in H as [H1 H2]. apply mem_In in H1. apply negb_true_iff, mem_false in H2.
          assert (Ix : In x (sdiff (sinter k1 k2) keep)) by (rewrite sdiff_In, sinter_In; auto).
          destruct (sdiff (sinter k1 k2) keep); [destruct Ix|reflexivity].
        * intros H. destruct (sdiff (sinter k1 k2) keep) as [|x r] eqn:Es; [discriminate|].
          assert (Ix : In x (sdiff (sinter k1 k2) keep)) by (rewrite Es; simpl; auto). rewrite sdiff_In, sinter_In in Ix. destruct Ix as [[I1 I2] I3].
          exists x. split; auto. apply andb_true_iff. split; [apply mem_In; auto|apply negb_true_iff, mem_false; auto].
    - apply known_inter, known_union; auto.
  Qed.

  (** ** the search *)
  Definition reaches (best : option Z) (z : Z) : Prop := match best with Some b => (b <= z)%Z | None => False end.
  Definition better (s s' : ostate) : Prop := forall z, reaches (o_flops s) z -> reaches (o_flops s') z.
  Definition cache_ok (c : rcache) : Prop :=
    forall k1 k2 w, get (k1, k2) c = Some w -> forall a b, apart inputs a b -> same k1 (ti a) -> same k2 (ti b) -> right_for w a b.
  Definition sound (s : ostate) : Prop :=
    forall z, o_flops s = Some z -> exists t, ssa_tree n (o_path s) = Some t /\ pairwise_tree n t /\ tf t = z.

  Lemma right_move w a b a' b' : right_for w a b -> apart inputs a b -> apart inputs a' b' ->
    same (ti a) (ti a') -> same (ti b) (ti b') -> right_for w a' b'.
  Proof.
    intros (H1 & H2 & H3) A A' Sa Sb. destruct (step_local size NH A A' Sa Sb) as [E1 E2]. split; [eapply same_trans; eauto|]. split; auto.
    rewrite H2. exact E2.
  Qed.
  Lemma lookup_true tr tb rem i j k1 k2 c : good tr tb rem -> In i rem -> In j rem -> i <> j ->
    nth_error tb i = Some k1 -> nth_error tb j = Some k2 -> cache_ok c ->
    exists w c', match get (k1, k2) c with
                 | Some w => Ok (w, c)
                 | None => do w <- calc_k12_flops sizes output tb rem i j; Ok (w, set (k1, k2) w c)
                 end = Ok (w, c') /\ right_for w (tr_at tr i) (tr_at tr j) /\ cache_ok c'.
  Proof.
    intros G Ii Ij D N1 N2 C. pose proof (good_apart G Ii Ij D) as A.
    assert (S1 : same k1 (ti (tr_at tr i))) by (rewrite <- (nth_error_nth _ _ [] N1); apply (gd_ind G); auto).
    assert (S2 : same k2 (ti (tr_at tr j))) by (rewrite <- (nth_error_nth _ _ [] N2); apply (gd_ind G); auto).
    destruct (get (k1, k2) c) as [w|] eqn:E.
    - exists w, c. split; auto. split; auto. eapply C; eauto.
    - destruct (calc_true G Ii Ij D) as (w & -> & Rw). cbn [bind]. do 2 eexists. split; [reflexivity|]. split; auto.
      intros k1' k2' w' Ew a b Aab Sa Sb. destruct (eqb_spec (k1, k2) (k1', k2')) as [Ek|Ek].
      + inversion Ek; subst k1' k2'. rewrite get_set_eq in Ew. inversion Ew; subst w'.
        eapply right_move; eauto; eapply same_trans; try eassumption; apply same_sym; auto.
      + rewrite get_set_neq in Ew by auto. eapply C; eauto.
  Qed.
  Lemma tr_old tr x r : r < length tr -> tr_at (tr ++ [x]) r = tr_at tr r.
  Proof. intros L. apply app_nth1. auto. Qed.
  Lemma tr_new tr x : tr_at (tr ++ [x]) (length tr) = x.
  Proof. unfold tr_at. rewrite app_nth2, Nat.sub_diag; auto. Qed.
  Lemma forest_step tr tb rem i j : good tr tb rem ->
    forest (tr ++ [PNode [tr_at tr i; tr_at tr j]]) (filter (fun x => negb (mem x [i; j])) rem ++ [length tb])
    = forest tr (filter (fun x => negb (mem x [i; j])) rem) ++ [PNode [tr_at tr i; tr_at tr j]].
  Proof.
    intros G. unfold forest. rewrite map_app. f_equal.
    - apply map_ext_in. intros r I. apply filter_In in I as [I _]. apply tr_old. rewrite (gd_len G). apply (gd_range G). auto.
    - simpl. rewrite <- (gd_len G), tr_new. auto.
  Qed.
  Lemma forest_two tr tb rem i j : good tr tb rem -> In i rem -> In j rem -> i <> j ->
    Permutation (forest tr rem) (tr_at tr i :: tr_at tr j :: forest tr (filter (fun x => negb (mem x [i; j])) rem)).
  Proof. intros G Ii Ij D. apply (Permutation_map (tr_at tr) (take_two (gd_nodup G) Ii Ij D)). Qed.
  Lemma good_step tr tb rem i j w : good tr tb rem -> In i rem -> In j rem -> i <> j -> right_for w (tr_at tr i) (tr_at tr j) ->
    good (tr ++ [PNode [tr_at tr i; tr_at tr j]]) (tb ++ [fst w]) (filter (fun x => negb (mem x [i; j])) rem ++ [length tb]).
  Proof.
    intros G Ii Ij D (R1 & R2 & R3).
    assert (Old : forall r, In r (filter (fun x => negb (mem x [i; j])) rem) -> r < length tb /\ In r rem).
    { intros r I. apply filter_In in I as [I _]. split; auto. apply (gd_range G). auto. }
    constructor.
    - rewrite !app_length, (gd_len G). auto.
    - 
      eapply Permutation_NoDup; [apply Permutation_cons_append|]. constructor; [|apply NoDup_filter, (gd_nodup G)].
      intros I. apply Old in I. lia.
    - intros r I. rewrite app_length. simpl. apply in_app_or in I as [I|[<-|[]]]; [apply Old in I; lia|lia].
    - apply Forall_app. split; [apply (gd_known G)|auto].
    - intros r I. apply in_app_or in I as [I|[<-|[]]].
      + apply Old in I as [L I]. rewrite tr_old by (rewrite (gd_len G); auto). rewrite app_nth1 by auto. apply (gd_ind G). auto.
      + rewrite <- (gd_len G) at 2. rewrite tr_new. rewrite app_nth2, Nat.sub_diag by lia. exact R1.
    - intros r I. apply in_app_or in I as [I|[<-|[]]].
      + apply Old in I as [L I]. rewrite tr_old by (rewrite (gd_len G); auto). apply (gd_bin G). auto.
      + rewrite <- (gd_len G), tr_new. split; apply (gd_bin G); auto.
    - rewrite (forest_step _ _ G). rewrite <- (gd_part G). rewrite (flat_perm (forest_two G Ii Ij D)).
      rewrite flat_map_app. cbn [flat_map]. rewrite app_nil_r, leaves_two.
      rewrite (app_assoc (tree_leaves (tr_at tr i)) (tree_leaves (tr_at tr j))). apply Permutation_app_comm.
  Qed.

  Lemma iter_best fuel : forall path rem tb tr flops st, length rem <= fuel -> rem <> [] -> good tr tb rem ->
    ssa_run PNode (map PLeaf (seq 0 n)) path = Some tr -> (exists r0, rem = r0 ++ [length tb - 1]) ->
    flops = cost (forest tr rem) -> below_best flops (o_flops st) = true -> cache_ok (o_cache st) /\ sound st ->
    exists st', optimal_iter ord sizes None output fuel path rem tb flops st = Ok st' /\
      (cache_ok (o_cache st') /\ sound st') /\ better st st' /\
      forall T, built (forest tr rem) T -> reaches (o_flops st') (tf T).
  Proof.
    induction fuel as [|fuel IH]; intros path rem tb tr flops st Lf Ne G Run (r0 & Er) Ef Bl (Ck & Sd); cbn [optimal_iter].
    { destruct rem; [congruence|simpl in Lf; lia]. }
    destruct (Nat.eqb_spec (length rem) 1) as [L1|L1].
    { assert (r0 = []) as -> by (rewrite Er, app_length in L1; destruct r0; simpl in L1; [auto|lia]). cbn [app] in Er.
      assert (Ft : forest tr rem = [tr_at tr (length tb - 1)]) by (rewrite Er; auto).
      assert (Lt : length tb - 1 < length tb) by (apply (gd_range G); rewrite Er; simpl; auto).
      eexists. split; [reflexivity|]. cbn [o_cache o_flops o_path]. split; [split; [exact Ck|]|split].
      - intros z Ez. cbn in Ez. inversion Ez; subst z. cbn [o_path]. exists (tr_at tr (length tb - 1)). split; [|split].
        + unfold ssa_tree. rewrite Run. unfold tr_at. rewrite (gd_len G). apply nth_error_nth'. rewrite (gd_len G). lia.
        + split; [apply (gd_bin G); rewrite Er; simpl; auto|]. rewrite <- (gd_part G), Ft. simpl. rewrite app_nil_r. auto.
        + rewrite Ef, Ft. unfold cost, OptimalProofs.cost. simpl. unfold tf. lia.
      - intros z Hz. unfold reaches in *. cbn. destruct (o_flops st) as [b|]; [|destruct Hz]. cbn in Bl. apply Z.ltb_lt in Bl. lia.
      - intros T B. cbn. rewrite Ef. apply built_le; auto. apply size_ge. }
    set (Q := fun (p : nat * nat) s => forall T, built (PNode [tr_at tr (Nat.min (fst p) (snd p)); tr_at tr (Nat.max (fst p) (snd p))]
               :: forest tr (filter (fun x => negb (mem x [Nat.min (fst p) (snd p); Nat.max (fst p) (snd p)])) rem)) T -> reaches (o_flops s) (tf T)).
    match goal with |- context [foldM ?f st (combos (ord rem))] =>
      destruct (@foldM_all _ _ f (fun s => cache_ok (o_cache s) /\ sound s) better Q (combos (ord rem))) with (b := st)
        as (st' & E & P' & R' & Q') end.
    { intros s z; auto. }
    { intros a b c H1 H2 z Hz. auto. }
    { intros x b c H1 H2 T B. apply H2, H1, B. }
    { auto. }
    - intros s [a b] I (Cs & Ss).
      assert (No : NoDup (ord rem)) by (eapply Permutation_NoDup; [symmetry; apply ord_perm|apply (gd_nodup G)]).
      pose proof (combos_ne No I) as Nab. apply combos_in in I as [Ia Ib].
      apply (Permutation_in _ (ord_perm rem)) in Ia. apply (Permutation_in _ (ord_perm rem)) in Ib.
      unfold Q. cbn [fst snd]. set (i := Nat.min a b) in *. set (j := Nat.max a b) in *.
      assert (Ii : In i rem) by (unfold i; destruct (Nat.min_spec a b) as [[_ ->]|[_ ->]]; auto).
      assert (Ij : In j rem) by (unfold j; destruct (Nat.max_spec a b) as [[_ ->]|[_ ->]]; auto).
      assert (Nij : i <> j) by lia. clearbody i j. clear Q.
      destruct (at_ok tb (gd_range G _ Ii)) as (k1 & -> & N1). cbn [bind].
      destruct (at_ok tb (gd_range G _ Ij)) as (k2 & -> & N2). cbn [bind].
      destruct (@lookup_true tr tb rem i j k1 k2 (o_cache s) G Ii Ij Nij N1 N2 Cs) as (w & c' & -> & Rw & Cc').
      cbn [bind fst snd o_flops o_path o_cache].
      pose proof (good_step G Ii Ij Nij Rw) as G'.
      assert (Ec : (flops + snd w)%Z = cost (forest (tr ++ [PNode [tr_at tr i; tr_at tr j]]) (filter (fun x => negb (mem x [i; j])) rem ++ [length tb]))).
      { rewrite (forest_step _ _ G), Ef. unfold cost. rewrite cost_app, (cost_perm _ _ _ (forest_two G Ii Ij Nij)).
        destruct Rw as (_ & -> & _). unfold OptimalProofs.cost. simpl. unfold step. lia. }
      assert (Fo : forall T, built (PNode [tr_at tr i; tr_at tr j] :: forest tr (filter (fun x => negb (mem x [i; j])) rem)) T ->
                 built (forest (tr ++ [PNode [tr_at tr i; tr_at tr j]]) (filter (fun x => negb (mem x [i; j])) rem ++ [length tb])) T).
      { intros T B. rewrite (forest_step _ _ G). eapply built_perm; [|exact B]. apply Permutation_cons_append. }
      destruct (below_best (flops + snd w) (o_flops s)) eqn:Eb.
      + destruct (IH (path ++ [[i; j]]) (filter (fun x => negb (mem x [i; j])) rem ++ [length tb]) (tb ++ [fst w])
                    (tr ++ [PNode [tr_at tr i; tr_at tr j]]) (flops + snd w)%Z (OState (o_flops s) (o_path s) c')) as (st2 & E2 & P2 & R2 & Q2); auto.
        * pose proof (@pair_out i j rem (gd_nodup G) Ii Ij Nij). rewrite app_length. cbn [length]. lia.
        * intros E0. apply app_eq_nil in E0 as [_ E0]. discriminate.
        * rewrite (ssa_run_app _ _ _ _ Run). cbn [ssa_run picks].
          rewrite (nth_error_nth' tr (PLeaf 0)) by (rewrite (gd_len G); apply (gd_range G); auto).
          rewrite (nth_error_nth' tr (PLeaf 0)) by (rewrite (gd_len G); apply (gd_range G); auto). auto.
        * exists (filter (fun x => negb (mem x [i; j])) rem). rewrite app_length. cbn [length]. rewrite Nat.add_sub. reflexivity.
        * exists st2. split; [exact E2|]. split; [exact P2|]. split; [exact R2|]. intros T B. apply Q2, Fo, B.
      + eexists. split; [reflexivity|]. cbn [o_cache o_flops o_path]. split; [split; auto|]. split; [intros z; auto|].
        intros T B. apply Fo in B. apply (built_le size output inputs size_ge) in B. fold cost in B. rewrite <- Ec in B.
        destruct (o_flops s) as [b0|]; [|discriminate]. cbn in Eb. apply Z.ltb_ge in Eb. cbn. unfold tf. lia.
    - exists st'. split; [exact E|]. split; auto. split; auto. intros T B.
      inversion B as [t Et|F x y R T0 P B2]; subst.
      + assert (length (forest tr (r0 ++ [length tb - 1])) = 1) by (rewrite <- Et; auto). unfold forest in H. rewrite map_length in H. congruence.
      + remember (r0 ++ [length tb - 1]) as rem eqn:Er. clear Er.
        destruct (Permutation_map_inv _ _ (Permutation_sym P)) as (l3 & E3 & P3). destruct l3 as [|i0 [|j0 l]]; try discriminate. inversion E3; subst x y R.
        assert (Ii : In i0 rem) by (eapply Permutation_in; [symmetry; exact P3|simpl; auto]).
        assert (Ij : In j0 rem) by (eapply Permutation_in; [symmetry; exact P3|simpl; auto]).
        assert (Nij : i0 <> j0) by (pose proof (Permutation_NoDup P3 (gd_nodup G)) as N3; inversion N3 as [|? ? N4 _]; subst; intros ->; apply N4; simpl; auto).
        assert (Il : In i0 (ord rem)) by (eapply Permutation_in; [symmetry; apply ord_perm|auto]).
        assert (Jl : In j0 (ord rem)) by (eapply Permutation_in; [symmetry; apply ord_perm|auto]).
        assert (K : forall i j, In i rem -> In j rem -> (i = i0 /\ j = j0) \/ (i = j0 /\ j = i0) ->
                  exists T', built (PNode [tr_at tr i; tr_at tr j] :: forest tr (filter (fun x => negb (mem x [i; j])) rem)) T' /\ tf T' = tf T).
        { intros i j Hi Hj Hc.
          assert (Bn : forall r, In r rem -> sw (tr_at tr r) (tr_at tr r)) by (intros; apply sw_refl, (gd_bin G); auto).
          assert (Fl : Permutation l (filter (fun x => negb (mem x [i; j])) rem)).
          { assert (Dij : i <> j) by (destruct Hc as [[-> ->]|[-> ->]]; auto).
            pose proof (Permutation_trans (Permutation_sym P3) (take_two (gd_nodup G) Hi Hj Dij)) as P4. destruct Hc as [[-> ->]|[-> ->]].
            - apply Permutation_cons_inv, Permutation_cons_inv in P4. auto.
            - apply (Permutation_trans (perm_swap i0 j0 l)) in P4. apply Permutation_cons_inv, Permutation_cons_inv in P4. auto. }
          destruct (built_sw B2) with (F' := PNode [tr_at tr i; tr_at tr j] :: map (tr_at tr) l) as (T' & B' & S').
          - constructor.
            + destruct Hc as [[-> ->]|[-> ->]]; [apply sw_keep|apply sw_swap]; auto.
            + assert (Hl : forall r, In r l -> In r rem) by (intros r Ir; eapply Permutation_in; [symmetry; exact P3|simpl; auto]).
              clear - Hl Bn. induction l as [|r l IHl]; constructor; [apply Bn, Hl; simpl; auto|]. apply IHl. intros; apply Hl; simpl; auto.
          - exists T'. split.
            + eapply built_perm; [|exact B']. constructor. apply Permutation_map. exact Fl.
            + destruct (sw_all size output inputs S') as (_ & _ & Et). unfold tf. auto. }
        assert (Kq : forall p, In p (combos (ord rem)) -> (p = (i0, j0) \/ p = (j0, i0)) -> reaches (o_flops st') (tf T)).
        { intros p Ip Hp.
          destruct (K (Nat.min (fst p) (snd p)) (Nat.max (fst p) (snd p))) as (T' & B' & Et).
          - destruct Hp as [-> | ->]; cbn [fst snd]; [destruct (Nat.min_spec i0 j0) as [[_ ->]|[_ ->]]|destruct (Nat.min_spec j0 i0) as [[_ ->]|[_ ->]]]; auto.
          - destruct Hp as [-> | ->]; cbn [fst snd]; [destruct (Nat.max_spec i0 j0) as [[_ ->]|[_ ->]]|destruct (Nat.max_spec j0 i0) as [[_ ->]|[_ ->]]]; auto.
          - destruct Hp as [-> | ->]; cbn [fst snd]; lia.
          - rewrite <- Et. apply (Q' p Ip). exact B'. }
        destruct (combos_all _ Il Jl Nij) as [Ip|Ip]; eapply Kq; eauto.
  Qed.

  Lemma good_start : good (map PLeaf (seq 0 n)) inputs (seq 0 n).
  Proof.
    assert (At : forall r, r < n -> tr_at (map PLeaf (seq 0 n)) r = PLeaf r).
    { intros r L. unfold tr_at. change (PLeaf 0) with (PLeaf 0). rewrite (map_nth PLeaf (seq 0 n) 0 r), seq_nth; auto. }
    constructor.
    - rewrite map_length, seq_length. auto.
    - apply seq_NoDup.
    - intros r I. apply in_seq in I. exact (proj2 I).
    - exact Kn.
    - intros r I. apply in_seq in I. rewrite At by lia. apply same_refl.
    - intros r I. apply in_seq in I. rewrite At by lia. simpl. auto.
    - unfold forest. rewrite map_ext_in with (g := PLeaf) by (intros r I; apply in_seq in I; apply At; lia).
      clear. induction (seq 0 n) as [|x r IHr]; simpl; auto.
  Qed.
  Theorem optimal_best : 2 <= n ->
    exists p t, optimal ord sizes None output inputs = Ok (zpath p) /\ valid_lin n p /\ lin_tree n p = Some t /\
      pairwise_tree n t /\ forall t', pairwise_tree n t' -> (tf t <= tf t')%Z.
  Proof.
    intros L.
    destruct (@optimal_iter_ok ord ord_perm sizes None output n n [] (seq 0 n) inputs 0 (OState None [seq 0 n] [])) as (st & E & V & _); auto.
    { rewrite seq_length. lia. }
    { destruct n; simpl; [lia|discriminate]. }
    { apply seq_NoDup. }
    { intros x I. apply in_seq in I. exact (proj2 I). }
    { intros k w E. discriminate. }
    { cbn. apply (@opens_all n [] (seq 0 n) n); auto; [apply opens_start| |apply seq_NoDup]. destruct n; simpl; [lia|discriminate]. }
    { apply opens_start. }
    destruct (@iter_best n [] (seq 0 n) inputs (map PLeaf (seq 0 n)) 0 (OState None [seq 0 n] [])) as (st' & E' & (_ & Sd) & _ & B).
    { rewrite seq_length. lia. }
    { destruct n; simpl; [lia|discriminate]. }
    { apply good_start. }
    { reflexivity. }
    { exists (seq 0 (n - 1)). replace n with ((n - 1) + 1) at 1 by lia. rewrite seq_app. reflexivity. }
    { unfold cost, forest. rewrite map_ext_in with (g := PLeaf).
      - symmetry. generalize (seq 0 n). intros l. induction l as [|x r IHr]; [reflexivity|exact IHr].
      - intros r I. apply in_seq in I. unfold tr_at. rewrite (map_nth PLeaf (seq 0 n) 0 r), seq_nth by lia. auto. }
    { reflexivity. }
    { split; [intros k1 k2 w Ew; discriminate|intros z Ez; discriminate]. }
    assert (st' = st) by congruence. subst st'. clear E'.
    assert (Bf : forall t', pairwise_tree n t' -> reaches (o_flops st) (tf t')).
    { intros t' Pt. apply B. unfold forest. rewrite map_ext_in with (g := PLeaf).
      - apply built_all. auto.
      - intros r I. apply in_seq in I. unfold tr_at. rewrite (map_nth PLeaf (seq 0 n) 0 r), seq_nth by lia. auto. }
    assert (Fl : exists z, o_flops st = Some z).
    { destruct (o_flops st) as [z|] eqn:Ez; eauto. exfalso.
      assert (Ex : forall m, exists t, binary t /\ tree_leaves t = seq 0 (S m)).
      { induction m as [|m (t & Bt & Lt)]; [exists (PLeaf 0); split; simpl; auto|]. exists (PNode [t; PLeaf (S m)]).
        split; [simpl; auto|]. rewrite leaves_two, Lt. replace (seq 0 (S (S m))) with (seq 0 (S m + 1)) by (f_equal; lia). rewrite seq_app. reflexivity. }
      destruct (Ex (n - 1)) as (t & Bt & Lt). replace (S (n - 1)) with n in Lt by lia.
      apply (Bf t). split; auto. rewrite Lt. auto. }
    destruct Fl as (z & Ez). destruct (Sd z Ez) as (t & Et & Pt & Ct).
    unfold optimal. fold n. rewrite E. cbn [bind].
    assert (Np : o_path st <> []) by (intros E2; rewrite E2 in V; cbn in V; rewrite seq_length in V; lia).
    destruct (@ssa_linear_ssa n (o_path st) V Np) as (p & E1 & Vp & Lp).
    assert (Npp : p <> []) by (intros ->; simpl in Vp; lia).
    destruct (linear_ssa_linear n Vp Npp) as (s & Es & _ & _ & t2 & T1 & T2).
    assert (s = o_path st) by congruence. subst s. rewrite Et in T2. inversion T2; subst t2.
    exists p, t. split; [exact E1|]. split; auto. split; auto. split; auto. intros t' Pt'. rewrite Ct.
    specialize (Bf t' Pt'). rewrite Ez in Bf. exact Bf.
  Qed.
End Search.

(** ** a pairwise path denotes a pairwise tree *)
Lemma keep_take {A} (x : A) i r : ~ In i r -> forall l k, k <= i -> nth_error l (i - k) = Some x ->
  Permutation (keep_from k r l) (x :: keep_from k (i :: r) l).
Proof.
  intros Ni. induction l as [|y l IH]; intros k L E; [destruct (i - k); discriminate|]. cbn [keep_from].
  destruct (Nat.eq_dec i k) as [->|N].
  - rewrite Nat.sub_diag in E. inversion E; subst y. replace (mem k (k :: r)) with true by (symmetry; apply mem_In; simpl; auto).
    replace (mem k r) with false by (symmetry; apply mem_false; auto). constructor.
    rewrite (@keep_same A l (S k) (k :: r) r); auto. intros j Hj. simpl. split; [intros [->|H]; [lia|auto]|auto].
  - replace (mem k (i :: r)) with (mem k r).
    + replace (i - k) with (S (i - S k)) in E by lia. cbn [nth_error] in E. destruct (mem k r); [apply IH; auto; lia|].
      rewrite (IH (S k)) by (auto; lia). apply perm_swap.
    + apply bool_iff. rewrite !mem_In. simpl. intuition congruence.
Qed.
Lemma picks_keep {A} ids : forall (l q : list A), NoDup ids -> picks ids l = Some q -> Permutation (q ++ keep_except ids l) l.
Proof.
  induction ids as [|i r IH]; intros l q N E; cbn [picks] in E.
  - inversion E; subst. unfold keep_except. rewrite keep_none; auto.
  - destruct (nth_error l i) as [x|] eqn:Ei; [|discriminate]. destruct (picks r l) as [q'|] eqn:Er; [|discriminate]. inversion E; subst.
    inversion N; subst. rewrite <- (IH l q') at 2 by auto. unfold keep_except. cbn [app].
    rewrite (@keep_take A x i r H1 l 0) by (rewrite ?Nat.sub_0_r; auto; lia). apply Permutation_middle.
Qed.
Lemma pairwise_lin_tree (p : lpath) : forall F, valid_lin (length F) p -> Forall (fun s => length s = 2) p -> Forall binary F ->
  exists t, lin_run PNode F p = Some [t] /\ binary t /\ Permutation (tree_leaves t) (flat_map tree_leaves F).
Proof.
  induction p as [|s p IH]; intros F V Pw B; cbn [valid_lin lin_run] in *.
  - destruct F as [|t [|]]; try discriminate. exists t. split; auto. inversion B; subst. split; auto. simpl. rewrite app_nil_r. auto.
  - destruct V as (Ne & Nd & R & V). inversion Pw as [|? ? L2 Pw']; subst.
    destruct (picks_some R) as (q & Eq). rewrite Eq. pose proof (picks_keep F Nd Eq) as P. pose proof (picks_length Eq) as Lq.
    rewrite L2 in Lq. destruct q as [|a [|b [|]]]; try discriminate. cbn [app] in P.
    assert (BF : Forall binary (a :: b :: keep_except s F)) by (eapply Permutation_Forall; [symmetry; exact P|auto]).
    inversion BF as [|? ? Ba BF']; subst. inversion BF' as [|? ? Bb BF'']; subst.
    destruct (IH (keep_except s F ++ [PNode [a; b]])) as (t & Et & Bt & Lt); auto.
    + rewrite app_length. cbn [length]. pose proof (Permutation_length P) as Lp. cbn [length] in Lp. rewrite L2 in V.
      replace (length (keep_except s F) + 1) with (length F - 2 + 1) by lia. auto.
    + apply Forall_app. split; auto. constructor; [split; auto|constructor].
    + exists t. split; auto. split; auto. rewrite Lt, flat_map_app. cbn [flat_map]. rewrite app_nil_r, leaves_two.
      rewrite <- (flat_perm P). cbn [flat_map]. rewrite (app_assoc (tree_leaves a) (tree_leaves b)). apply Permutation_app_comm.
Qed.
Lemma pairwise_path_tree n p : valid_lin n p -> Forall (fun s => length s = 2) p -> exists t, lin_tree n p = Some t /\ pairwise_tree n t.
Proof.
  intros V Pw. destruct (@pairwise_lin_tree p (map PLeaf (seq 0 n))) as (t & Et & Bt & Lt); auto.
  - rewrite map_length, seq_length. auto.
  - apply Forall_forall. intros t I. apply in_map_iff in I as (i & <- & _). simpl. auto.
  - exists t. unfold lin_tree. rewrite Et. split; auto. split; auto. rewrite Lt.
    generalize (seq 0 n). intros l. induction l as [|x r IHr]; simpl; auto.
Qed.
