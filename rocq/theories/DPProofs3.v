(** * The dynamic programming optimiser: connected parts and the whole path *)
From Coq Require Import List Arith ZArith NArith Lia Bool Permutation Sorted.
From Verif Require Import Base PathSpec ModelOrder OrderProofs ModelPath ModelOpt ModelDP PathProofs OptProofs OptProofs2 DPProofs DPProofs2.
Import ListNotations.
Set Implicit Arguments.
Open Scope nat_scope.

Definition share (inputs : list nset) (output : nset) (k j : nat) : Prop :=
  exists x, In x (ix inputs k) /\ In x (ix inputs j) /\ ~ In x output.
Lemma chained_snoc inputs output g j : chained output inputs g -> (g = [] \/ exists k, In k g /\ share inputs output k j) ->
  chained output inputs (g ++ [j]).
Proof.
  intros Hc Hj a j0 b E Ha. destruct (@exists_last _ (j0 :: b)) as (b' & y & Eb); [discriminate|]. rewrite Eb in E.
  rewrite app_assoc in E. apply app_inj_tail in E as [E <-].
  destruct b' as [|j1 b'].
  - simpl in Eb. injection Eb as -> ->. rewrite app_nil_r in E. subst a. destruct Hj as [->|(k & Hk & x & H1 & H2 & H3)]; [congruence|]. exists k, x. auto.
  - simpl in Eb. injection Eb as -> ->. apply (Hc a j1 b'); auto.
Qed.
Lemma filter_split {A} (f : A -> bool) l : Permutation (filter f l ++ filter (fun x => negb (f x)) l) l.
Proof.
  induction l as [|x r IH]; simpl; auto. destruct (f x); simpl; [now constructor|]. rewrite <- Permutation_middle. now constructor.
Qed.
Lemma component_ok (inputs : list nset) output fuel : forall g q unused,
  length q + length unused <= fuel -> Forall (fun j => j < length inputs) (q ++ unused) ->
  chained output inputs g -> ((g = [] /\ length q = 1) \/ (forall j, In j q -> exists k, In k g /\ share inputs output k j)) ->
  exists g' u', component fuel (sdiff (mkset (concat inputs)) output) inputs g q unused = Ok (g', u') /\
    Permutation (g' ++ u') (g ++ q ++ unused) /\ chained output inputs g' /\ (g ++ q <> [] -> g' <> []).
Proof.
  induction fuel as [|fuel IH]; intros g q unused Hf Hr Hc Hq; destruct q as [|j q]; cbn [component].
  1, 3: exists g, unused; split; auto; split; [simpl; auto|]; split; auto; rewrite app_nil_r; auto.
  { simpl in Hf. lia. }
  simpl in Hr. inversion Hr as [|? ? Hj Hr']; subst. unfold at_. rewrite (nth_error_nth' inputs [] Hj). cbn [bind].
  set (near := fun x => nonempty _). 
  assert (Hnear : forall x, near x = true -> share inputs output j x).
  { intros x Hx. unfold near in Hx. destruct (sinter (sinter _ _) _) as [|y r] eqn:E; [discriminate|]. assert (Hy : In y (y :: r)) by now left.
    rewrite <- E in Hy. apply sinter_In in Hy as [Hy H2]. apply sinter_In in Hy as [Hy H1]. apply sdiff_In in Hy. exists y. unfold ix. tauto. }
  pose proof (filter_split near unused) as Ps.
  assert (Hhd : chained output inputs (g ++ [j])).
  { apply chained_snoc; auto. destruct Hq as [[-> _]|Hq]; auto. right. apply Hq. now left. }
  destruct (IH (g ++ [j]) (rev (filter near unused) ++ q) (filter (fun x => negb (near x)) unused)) as (g' & u' & E & P & C & N); auto.
  - apply Permutation_length in Ps. rewrite app_length in *. rewrite rev_length. simpl in Hf. lia.
  - apply Forall_app in Hr' as [H1 H2]. rewrite Forall_forall in H1, H2. apply Forall_forall. intros x. rewrite !in_app_iff, <- in_rev, !filter_In.
    intros [[G|G]|G]; [apply H2|apply H1|apply H2]; tauto.
  - right. intros x. rewrite in_app_iff, <- in_rev, filter_In. intros [[_ G]|G].
    + exists j. rewrite in_app_iff. split; [simpl; auto|]. auto.
    + destruct Hq as [[_ Hq]|Hq]; [simpl in Hq; destruct q; [destruct G|simpl in Hq; lia]|].
      destruct (Hq x) as (k & Hk & S); [now right|]. exists k. rewrite in_app_iff. auto.
  - exists g', u'. split; auto. split; [|split; auto].
    + rewrite P. rewrite <- !app_assoc. apply Permutation_app_head. simpl. constructor.
      rewrite <- (Permutation_rev (filter near unused)). rewrite <- Ps at 3. rewrite !app_assoc. apply Permutation_app_tail. apply Permutation_app_comm.
    + intros _. apply N. destruct g; discriminate.
Qed.
Lemma subgraphs_ok (inputs : list nset) output fuel : forall unused, length unused <= fuel -> length unused <= length inputs ->
  Forall (fun j => j < length inputs) unused ->
  exists gs, subgraphs fuel (sdiff (mkset (concat inputs)) output) inputs unused = Ok gs /\ Permutation (concat gs) unused /\
    Forall (fun g => g <> [] /\ chained output inputs g) gs.
Proof.
  induction fuel as [|fuel IH]; intros [|j r] Hf Hl Hr; cbn [subgraphs]; try (exists []; repeat split; auto; fail).
  { simpl in Hf. lia. }
  destruct (@component_ok inputs output (length inputs) [] [j] r) as (g & u & E & P & C & N); auto.
  - intros a j0 b G. destruct a; discriminate.
  - rewrite E. cbn [bind fst snd]. simpl in P.
    assert (Fr : Forall (fun j => j < length inputs) (g ++ u)).
    { rewrite Forall_forall in *. intros x Hx. apply Hr. rewrite <- P. auto. }
    apply Forall_app in Fr as [_ Fu]. assert (Hg : g <> []) by (apply N; discriminate).
    pose proof (Permutation_length P) as L. rewrite app_length in L. simpl in L, Hf, Hl. destruct g as [|g0 gr]; [congruence|]. simpl in L.
    destruct (IH u) as (gs & -> & Pg & Fg); auto; try lia. cbn [bind]. exists ((g0 :: gr) :: gs). split; auto. split; [|auto].
    cbn [concat]. rewrite Pg. auto.
Qed.

Lemma mapM_or {A B} (f : A -> res B) e (R : A -> B -> Prop) l :
  (forall x, In x l -> f x = Err e \/ exists y, f x = Ok y /\ R x y) -> mapM f l = Err e \/ exists ys, mapM f l = Ok ys /\ Forall2 R l ys.
Proof.
  induction l as [|x r IH]; intros H; cbn [mapM]; [right; eauto|].
  destruct (H x (or_introl eq_refl)) as [->|(y & -> & Hy)]; auto. cbn [bind].
  destruct IH as [->|(ys & -> & Hs)]; [intros z Hz; apply H; now right|auto|]. cbn [bind]. right. eauto.
Qed.
Lemma fold_tree l : forall t, full t -> Forall full l ->
  full (fold_left (fun x y => PNode [x; y]) l t) /\ leaves (fold_left (fun x y => PNode [x; y]) l t) = leaves t ++ flat_map leaves l.
Proof.
  induction l as [|u r IH]; intros t Ht Hl; cbn [fold_left flat_map]; [now rewrite app_nil_r|]. inversion Hl; subst.
  destruct (IH (PNode [t; u])) as [A B]; auto; [simpl; repeat split; auto; discriminate|]. split; auto. rewrite B. simpl. rewrite app_nil_r. now rewrite app_assoc.
Qed.
Lemma picks_perm {A} ids (l q : list A) : Permutation ids (seq 0 (length l)) -> picks ids l = Some q -> Permutation q l.
Proof.
  intros P. revert q. 
  assert (G : forall ids ids', Permutation ids ids' -> forall q q' : list A, picks ids l = Some q -> picks ids' l = Some q' -> Permutation q q').
  { clear. intros ids ids' P. induction P as [|x a b P IH|x y a|a b c P1 IH1 P2 IH2]; intros q q'; cbn [picks].
    - intros [= <-] [= <-]. auto.
    - destruct (nth_error l x); [|discriminate]. destruct (picks a l); [|discriminate]. destruct (picks b l); [|discriminate].
      intros [= <-] [= <-]. constructor. auto.
    - destruct (nth_error l x), (nth_error l y), (picks a l); try discriminate. intros [= <-] [= <-]. constructor.
    - intros H1 H2. destruct (@picks_some A b l) as (q2 & E).
      + apply picks_range in H1. rewrite Forall_forall in *. intros i Hi. apply H1. eapply Permutation_in; [apply Permutation_sym; exact P1|exact Hi].
      + transitivity q2; auto. }
  intros q H. eapply G; eauto. pose proof (@picks_right A l []) as R. simpl in R. rewrite map_id in R. auto.
Qed.

Section Whole.
  Variable argsort : list Z -> list nat.
  Hypothesis sorts : forall l, Permutation (argsort l) (seq 0 (length l)).
  Variable sizes : list (nat * Z).
  Variable limit : option Z.
  Variable inputs : list nset.
  Variable output : nset.

  (** an index that is kept or summed between operands, so that not every operand is a scalar at once *)
  Definition bound_index : Prop :=
    exists j c, In c (ix inputs j) /\ (In c output \/ exists k, k <> j /\ In c (ix inputs k)).

  Lemma two_length c : forall l : list nset, length (filter (fun i => mem c i) l) = 1 ->
    forall j k, In c (nth j l []) -> In c (nth k l []) -> j = k.
  Proof.
    induction l as [|i r IH]; [discriminate|]. cbn [filter]. intros H [|j] [|k] Hj Hk; auto; cbn [nth] in *.
    - exfalso. apply mem_In in Hj. rewrite Hj in H. simpl in H. assert (Z : In (nth k r []) (filter (fun i => mem c i) r)).
      { apply filter_In. split; [|now apply mem_In]. destruct (nth_in_or_default k r []) as [|E]; auto. rewrite E in Hk. destruct Hk. }
      destruct (filter (fun i => mem c i) r); [destruct Z|discriminate].
    - exfalso. apply mem_In in Hk. rewrite Hk in H. simpl in H. assert (Z : In (nth j r []) (filter (fun i => mem c i) r)).
      { apply filter_In. split; [|now apply mem_In]. destruct (nth_in_or_default j r []) as [|E]; auto. rewrite E in Hj. destruct Hj. }
      destruct (filter (fun i => mem c i) r); [destruct Z|discriminate].
    - destruct (mem c i); [simpl in H|f_equal; apply IH; auto]. exfalso.
      assert (Z : In (nth k r []) (filter (fun i => mem c i) r)).
      { apply filter_In. split; [|now apply mem_In]. destruct (nth_in_or_default k r []) as [|E]; auto. rewrite E in Hk. destruct Hk. }
      destruct (filter (fun i => mem c i) r); [destruct Z|discriminate].
  Qed.

  Theorem dp_ok fuel : Forall (known sizes) inputs -> known sizes output -> bound_index ->
    (dp fuel argsort sizes limit inputs output = Err OutOfFuel \/
     exists p, dp fuel argsort sizes limit inputs output = Ok p /\ valid_lin (length inputs) p) /\
    (limit = None -> sizes_from 2 sizes (concat inputs ++ output) ->
     Z.to_nat (Z.of_nat (length inputs) * prod_of sizes (sunion (mkset (concat inputs)) output)) < fuel ->
     dp fuel argsort sizes limit inputs output <> Err OutOfFuel).
  Proof.
    intros Ki Ko (j0 & c0 & Hc0 & Hb0). unfold dp.
    destruct inputs as [|i0 ir] eqn:Ein.
    { exfalso. destruct j0; destruct Hc0. }
    rewrite <- Ein in *. clear i0 ir Ein. set (all := sunion (mkset (concat inputs)) output).
    assert (Kall : known sizes all).
    { intros x Hx. unfold all in Hx. rewrite sunion_In, mkset_In, in_concat in Hx. destruct Hx as [(i & Hi & Hx)|Hx]; auto. rewrite Forall_forall in Ki. apply (Ki i); auto. }
    rewrite (size_prod Kall). cbn [bind].
    set (i_single := filter _ (sdiff (mkset (concat inputs)) output)).
    set (rest := flat_map _ (enum inputs)). set (done := flat_map _ (enum inputs)).
    assert (Leaves : Permutation (flat_map leaves (done ++ map snd rest)) (seq 0 (length inputs)) /\ Forall full done /\ Forall full (map snd rest) /\
                     Forall (fun p => incl (fst p) all) rest /\ length rest <= length inputs).
    { assert (Iin : Forall (fun i => incl i all) inputs).
      { apply Forall_forall. intros i Hi x Hx. unfold all. rewrite sunion_In, mkset_In, in_concat. eauto. }
      unfold done, rest, enum. revert Iin. clearbody i_single all. clear. generalize 0.
      induction inputs as [|i r IH]; intros k Iin; cbn [length seq combine flat_map map]; [repeat split; auto|].
      inversion Iin; subst. destruct (IH (S k)) as (P & F1 & F2 & F3 & F4); auto. cbn [fst snd].
      destruct (nonempty (sdiff i i_single)) eqn:E; cbn [app].
      - split; [|split; [auto|split; [|split]]].
        + destruct (nonempty (sinter i i_single)); cbn [map app snd]; rewrite flat_map_app in *; cbn [flat_map leaves app];
            rewrite <- Permutation_middle; constructor; auto.
        + destruct (nonempty (sinter i i_single)); cbn [map app snd]; constructor; auto; simpl; repeat split; auto; discriminate.
        + constructor; auto. cbn [fst]. intros x Hx. apply sdiff_In in Hx. apply H1. tauto.
        + simpl. lia.
      - split; [|split; [|split; [auto|split; auto]]].
        + cbn [app flat_map leaves]. constructor. auto.
        + constructor; auto. simpl. repeat split; auto; discriminate.
        }
    destruct Leaves as (PL & Fd & Fr & Ir & Lr).
    assert (Hrest : rest <> []).
    { destruct (Nat.lt_ge_cases j0 (length inputs)) as [Hj|Hj]; [|unfold ix in Hc0; rewrite nth_overflow in Hc0 by auto; destruct Hc0].
      assert (Hne : nonempty (sdiff (ix inputs j0) i_single) = true).
      { assert (G : In c0 (sdiff (ix inputs j0) i_single)).
        { apply sdiff_In. split; auto. unfold i_single. rewrite filter_In, sdiff_In. intros [[_ G1] G2]. apply Nat.eqb_eq in G2.
          destruct Hb0 as [Hb0|(k & Hk & Hb0)]; [auto|]. apply Hk. apply (two_length _ _ G2); auto. }
        destruct (sdiff (ix inputs j0) i_single); [destruct G|reflexivity]. }
      assert (Hin : In (j0, ix inputs j0) (enum inputs)).
      { unfold enum, ix. revert j0 Hj Hc0 Hb0 Hne. clear. intros j0 Hj _ _ _.
        assert (E : nth_error (combine (seq 0 (length inputs)) inputs) j0 = Some (j0, nth j0 inputs [])).
        { assert (G : forall s, nth_error (combine (seq s (length inputs)) inputs) j0 = Some (s + j0, nth j0 inputs [])).
          { revert j0 Hj. induction inputs as [|i r IH]; intros j0 Hj s; simpl in Hj; [lia|]. destruct j0; cbn [length seq combine nth_error nth].
            - now rewrite Nat.add_0_r.
            - rewrite IH by lia. f_equal. f_equal. lia. }
          apply (G 0). }
        now apply nth_error_In in E. }
      intros Z. assert (In (sdiff (ix inputs j0) i_single, if nonempty (sinter (ix inputs j0) i_single) then PNode [PLeaf j0] else PLeaf j0) rest).
      { unfold rest. apply in_flat_map. exists (j0, ix inputs j0). split; auto. cbn [fst snd]. rewrite Hne. now left. }
      rewrite Z in H. destruct H. }
    destruct rest as [|r0 rr] eqn:Erest; [congruence|]. rewrite <- Erest in *.
    set (ins := map fst rest) in *. set (exprs := map snd rest) in *.
    assert (Le : length exprs = length ins) by (unfold exprs, ins; now rewrite !map_length).
    assert (Iins : Forall (fun i => incl i all) ins).
    { apply Forall_forall. intros i Hi. apply in_map_iff in Hi as (p & <- & Hp). rewrite Forall_forall in Ir. auto. }
    unfold disconnected. destruct (@subgraphs_ok ins output (length ins) (seq 0 (length ins))) as (gs & -> & Pg & Fg).
    { now rewrite seq_length. } { now rewrite seq_length. } { apply Forall_forall. intros x Hx. apply in_seq in Hx. lia. }
    cbn [bind].
    assert (Gok : forall g, In g gs -> g <> [] /\ chained output ins g /\ NoDup g /\ Forall (fun j => j < length ins) g /\ length g <= length inputs).
    { intros g Hg. rewrite Forall_forall in Fg. destruct (Fg _ Hg) as [G1 G2]. split; auto. split; auto.
      assert (Nc : NoDup (concat gs)) by (eapply Permutation_NoDup; [apply Permutation_sym; exact Pg|apply seq_NoDup]).
      apply in_split in Hg as (a & b & ->). rewrite concat_app in Nc, Pg. cbn [concat] in Nc, Pg.
      split; [apply NoDup_app_remove_l in Nc; now apply NoDup_app_remove_r in Nc|]. split.
      - apply Forall_forall. intros j Hj. assert (In j (seq 0 (length ins))) by (rewrite <- Pg, !in_app_iff; auto). apply in_seq in H. lia.
      - apply Permutation_length in Pg. rewrite !app_length, seq_length in Pg. unfold ins in Pg. rewrite map_length in Pg. lia. }
    assert (Hmn : exists m, min_size sizes all = Ok m /\ (sizes_from 2 sizes all -> (2 <= m)%Z)).
    { assert (Ha : all <> []).
      { intros Z. assert (In c0 all); [|rewrite Z in H; destruct H]. unfold all. rewrite sunion_In, mkset_In, in_concat. left. exists (ix inputs j0). split; auto.
        unfold ix in *. destruct (nth_in_or_default j0 inputs []) as [|E]; auto. rewrite E in Hc0. destruct Hc0. }
      unfold min_size. set (f := fun c => match get c sizes with Some z => [z] | None => [] end).
      assert (Hge : sizes_from 2 sizes all -> Forall (fun z => (2 <= z)%Z) (flat_map f all)).
      { intros H. apply Forall_forall. intros z Hz. apply in_flat_map in Hz as (c & Hc & Hz). destruct (H c Hc) as (w & E & Hw). unfold f in Hz. rewrite E in Hz. destruct Hz as [<-|[]]. auto. }
      destruct (flat_map f all) as [|z r] eqn:E.
      - exfalso. destruct all as [|c ar]; [congruence|]. cbn [flat_map] in E. destruct (Kall c (or_introl eq_refl : In c (c :: ar))) as (w & Ew). unfold f in E. rewrite Ew in E. discriminate.
      - eexists. split; [reflexivity|]. intros H. apply Hge in H. clear - H. revert z H. induction r as [|y r IH]; intros z H; simpl; [now inversion H|].
        apply IH. inversion H as [|? ? H1 H2]; subst. inversion H2; subst. constructor; auto. lia. }
    destruct Hmn as (m & Em & Hm). rewrite Em.
    destruct (@mapM_or _ _ (dp_graph fuel sizes limit output ins exprs (Ok m)) OutOfFuel
      (fun g zt => full (snd zt) /\ Permutation (leaves (snd zt)) (flat_map (lv exprs) g)) gs) as [E|(cs & E & Fcs)].
    { intros g Hg. destruct (Gok g Hg) as (G1 & G2 & G3 & G4 & G5).
      destruct (@dp_graph_ok sizes limit output ins exprs all g Kall Iins G3 G4 Le Fr fuel m G1) as [[H|(z & t & H1 & H2 & H3)] _]; auto.
      right. exists (z, t). auto. }
    - (* out of fuel *)
      rewrite E. cbn [bind]. split; auto. intros Hl Hs Hf _. 
      assert (Hs2 : sizes_from 2 sizes all).
      { intros x Hx. apply Hs. unfold all in Hx. rewrite sunion_In, mkset_In in Hx. apply in_app_iff. auto. }
      assert (NE : forall g, In g gs -> dp_graph fuel sizes limit output ins exprs (Ok m) g <> Err OutOfFuel).
      { intros g Hg. destruct (Gok g Hg) as (G1 & G2 & G3 & G4 & G5).
        destruct (@dp_graph_ok sizes limit output ins exprs all g Kall Iins G3 G4 Le Fr fuel m G1) as [_ H]. apply H; auto.
        - intros x Hx. destruct (Hs2 x Hx) as (z & ? & ?). exists z. split; auto. lia.
        - eapply Nat.le_lt_trans; [|exact Hf]. apply Z2Nat.inj_le.
          + apply Z.mul_nonneg_nonneg; [lia|]. assert (1 <= wide sizes all)%Z; [|lia]. apply prod_pos. intros x Hx. destruct (Hs2 x Hx) as (z & ? & ?). exists z. split; auto. lia.
          + apply Z.mul_nonneg_nonneg; [lia|]. assert (1 <= wide sizes all)%Z; [|unfold wide in *; lia]. apply prod_pos. intros x Hx. destruct (Hs2 x Hx) as (z & ? & ?). exists z. split; auto. lia.
          + apply Z.mul_le_mono_nonneg_r; [|lia]. assert (1 <= wide sizes all)%Z; [|unfold wide in *; lia]. apply prod_pos. intros x Hx. destruct (Hs2 x Hx) as (z & ? & ?). exists z. split; auto. lia. }
      revert E NE. clear. generalize (dp_graph fuel sizes limit output ins exprs (Ok m)). intros f. induction gs as [|g r IH]; cbn [mapM]; [discriminate|].
      intros E NE. destruct (f g) as [y|e] eqn:Eg; cbn [bind] in E.
      + destruct (mapM f r) eqn:Er; cbn [bind] in E; [discriminate|]. injection E as ->. apply IH; auto. intros g' Hg'. apply NE. now right.
      + injection E as ->. apply (NE g); auto. now left.
    - rewrite E. cbn [bind].
      assert (Leq : length (done ++ map snd cs) = length (repeat 1%Z (length done) ++ map fst cs)) by (rewrite !app_length, !map_length, repeat_length; auto).
      pose proof (sorts (repeat 1%Z (length done) ++ map fst cs)) as Psort. rewrite <- Leq in Psort.
      destruct (@mapM_at _ (done ++ map snd cs) (argsort (repeat 1%Z (length done) ++ map fst cs))) as (ts & -> & Pts).
      { apply Forall_forall. intros x Hx. rewrite Psort in Hx. apply in_seq in Hx. lia. }
      cbn [bind]. pose proof (picks_perm _ Psort Pts) as Pt.
      assert (Fts : Forall full ts).
      { apply Forall_forall. intros t Ht. rewrite Pt, in_app_iff in Ht. destruct Ht as [Ht|Ht]; [rewrite Forall_forall in Fd; auto|].
        apply in_map_iff in Ht as (zt & <- & Hzt). clear - Fcs Hzt. induction Fcs as [|g y gs cs [H1 H2] F IH]; [destruct Hzt|]. destruct Hzt as [->|]; auto. }
      assert (Pleaf : Permutation (flat_map leaves ts) (seq 0 (length inputs))).
      { rewrite Pt, flat_map_app. rewrite <- PL, flat_map_app. apply Permutation_app_head.
        assert (Pc : Permutation (flat_map leaves (map snd cs)) (flat_map (lv exprs) (concat gs))).
        { clear - Fcs. induction Fcs as [|g y gs cs [H1 H2] F IH]; simpl; auto. rewrite flat_map_app, H2, IH. auto. }
        rewrite Pc, Pg. rewrite <- Le. clear. unfold lv.
        assert (G : forall (l pre : list ptree), flat_map (fun j => leaves (nth j (pre ++ l) (PLeaf 0))) (seq (length pre) (length l)) = flat_map leaves l).
        { induction l as [|t r IH]; intros pre; cbn [length seq flat_map]; auto. rewrite app_nth2, Nat.sub_diag by lia. cbn [nth]. f_equal.
          specialize (IH (pre ++ [t])). rewrite app_length in IH. simpl in IH. rewrite Nat.add_1_r in IH. rewrite <- IH. apply flat_map_ext. intros a. now rewrite <- app_assoc. }
        rewrite <- (G exprs []). reflexivity. }
      destruct ts as [|t tr].
      + exfalso. apply Permutation_length in Pleaf. simpl in Pleaf. rewrite seq_length in Pleaf. unfold ix in Hc0. rewrite nth_overflow in Hc0 by lia. destruct Hc0.
      + inversion Fts; subst. destruct (@fold_tree tr t) as [FT LT]; auto.
        destruct (@tree_to_sequence_ok (length inputs) (fold_left (fun x y => PNode [x; y]) tr t)) as (p & Ep & Vp & _); auto; [rewrite LT; auto|].
        rewrite Ep. split; [right; eauto|]. discriminate.
  Qed.
End Whole.
