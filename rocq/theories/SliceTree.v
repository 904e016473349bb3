(** * The tree part of the slicer runs through and its paths are right *)
From Coq Require Import List Arith ZArith Lia Bool Permutation Sorted.
From Verif Require Import Base PathSpec UctSpec ModelOrder ModelPath ModelOpt PathProofs OptProofs DPProofs DPProofs2 ModelUct UctProofs UctPath UctSwitch UctSwitch2 UctSwitch3 UctInit UctInit2 UctOps UctHist UctCost OrderSpec ModelTN ModelContract ModelScheme ModelSlice SliceSim.
Import ListNotations.
Set Implicit Arguments.
Open Scope nat_scope.

(** ** the tree without a subscript *)
Lemma pre_hit fuel n leaf adj sub u v s : get (u, v) sub = Some s -> preprocess fuel n leaf adj sub u v = Ok (sub, s).
Proof. intros E. destruct fuel; cbn [preprocess]; rewrite E; auto. Qed.
Lemma pre_edge fuel n leaf adj sub a b u v : view n (nbs adj) a b -> In v (nbs adj u) -> get (u, v) sub = None ->
  (v < n -> nth_error leaf v <> None) -> (forall c, In c (nbs adj v) -> c <> u -> get (v, c) sub <> None) ->
  exists s, preprocess (S fuel) n leaf adj sub u v = Ok (set (u, v) s sub, s).
Proof.
  intros V I E L K. cbn [preprocess]. rewrite E. unfold is_leaf. destruct (v <? n) eqn:Q.
  - apply Nat.ltb_lt in Q. specialize (L Q). destruct (nth_error leaf v) as [s|]; [eauto|congruence].
  - apply Nat.ltb_ge in Q. destruct (view_edge _ _ V I) as [I' Ne].
    destruct (@reroot _ _ _ _ _ _ V I) as (a' & b' & (_ & Hb & ND & _) & Ea & Eb & _). destruct b' as [i|w l r]; cbn [uid] in Eb; subst.
    { destruct Hb as [Hb _]. lia. }
    destruct Hb as (_ & Pm & Hl & Hr). pose proof (view_NoDup v V) as NV. rewrite Pm in NV. inversion NV as [|? ? N1 _]; subst. simpl in N1.
    assert (N2 : uid a' <> uid l) by (intros X; apply N1; auto). assert (N3 : uid a' <> uid r) by (intros X; apply N1; auto).
    assert (Gl : get (v, uid l) sub <> None) by (apply K; [rewrite Pm; simpl; auto|auto]).
    assert (Gr : get (v, uid r) sub <> None) by (apply K; [rewrite Pm; simpl; auto|auto]).
    destruct (get (v, uid l) sub) as [sl|] eqn:E1; [|congruence]. destruct (get (v, uid r) sub) as [sr|] eqn:E2; [|congruence].
    destruct (others_two _ _ N2 N3 Pm) as [O|O]; rewrite O.
    + rewrite (pre_hit _ _ _ _ _ _ _ E1). cbn [bind fst snd]. rewrite (pre_hit _ _ _ _ _ _ _ E2). cbn [bind fst snd]. eauto.
    + rewrite (pre_hit _ _ _ _ _ _ _ E2). cbn [bind fst snd]. rewrite (pre_hit _ _ _ _ _ _ _ E1). cbn [bind fst snd]. eauto.
Qed.
Lemma eqb_pair_ne (x y u v : nat) : (x, y) <> (u, v) -> eqb (x, y) (u, v) = false.
Proof. apply eqb_neq. Qed.
Lemma refill_ok t g e : sim t g -> uok g -> In (snd e) (nbs (u_adj g) (fst e)) -> exists t', refill t e = Ok t' /\ sim t' g.
Proof.
  destruct e as [u v]. cbn [fst snd]. intros S U I. destruct (g_view (k_graph U)) as (a & b & V & _).
  destruct (view_edge _ _ V I) as [I' Ne]. pose proof (g_sub (k_graph U)) as GS.
  assert (LF : forall y, In y (nbs (u_adj g) u) \/ In y (nbs (u_adj g) v) -> y < u_n t -> nth_error (u_leaf t) y <> None).
  { intros y Hy Ly. rewrite (sim_n S) in Ly. assert (H : exists x, In y (nbs (u_adj g) x)) by (destruct Hy; eauto). destruct H as (x & Hx).
    destruct (GS x y Hx) as (_ & _ & E & _). specialize (E Ly). apply nth_error_Some. rewrite (sim_leaf S). apply nth_error_Some. congruence. }
  assert (KK : forall x y, In y (nbs (u_adj g) x) -> (x, y) <> (u, v) -> (x, y) <> (v, u) -> get (x, y) (del (v, u) (del (u, v) (u_sub t))) <> None).
  { intros x y Hy N1 N2. rewrite get_del, (eqb_pair_ne N2), get_del, (eqb_pair_ne N1). destruct (GS x y Hy) as (H & _). unfold here in H.
    destruct (get (x, y) (u_sub g)) as [w|] eqn:E; [|congruence]. destruct (samek_get (x, y) (sim_sub S) E) as (w' & ->). discriminate. }
  assert (F : exists f, 2 * u_n t = Datatypes.S f).
  { rewrite (sim_n S). destruct V as (_ & _ & _ & _ & PL). destruct (u_n g) as [|m]; [|exists (m + Datatypes.S m + 0); lia]. exfalso.
    apply Permutation_length in PL. rewrite app_length in PL. cbn in PL. pose proof (height_lvs a). lia. }
  destruct F as (f & F). unfold refill. cbn [fst snd]. rewrite F.
  rewrite (sim_adj S), (sim_n S). rewrite (sim_n S) in LF.
  assert (Nuv : (v, u) <> (u, v)) by (intros X; inversion X; congruence).
  destruct (@pre_edge f (u_n g) (u_leaf t) (u_adj g) (del (v, u) (del (u, v) (u_sub t))) a b u v) as (s1 & E1); auto.
  { rewrite get_del, eqb_pair_ne by (intros X; inversion X; congruence). rewrite get_del, eqb_refl. auto. }
  { intros c Hc Nc. apply KK; auto; intros X; inversion X; congruence. }
  rewrite E1. cbn [bind fst snd].
  destruct (@pre_edge f (u_n g) (u_leaf t) (u_adj g) (set (u, v) s1 (del (v, u) (del (u, v) (u_sub t)))) a b v u) as (s2 & E2); auto.
  { rewrite get_set, (eqb_pair_ne Nuv), get_del, eqb_refl. auto. }
  { intros c Hc Nc. rewrite get_set, eqb_pair_ne by (intros X; inversion X; congruence). apply KK; auto; intros X; inversion X; congruence. }
  rewrite E2. cbn [bind fst snd]. eexists. split; [reflexivity|]. destruct S as [S1 S2 S3 S4 S5 S6]. split; cbn [w_graph u_n u_adj u_par u_root u_leaf u_sub]; auto.
  intros q. rewrite !kin_set, !kin_del. rewrite <- (S6 q).
  assert (K1 : kin (u, v) (u_sub t) = true).
  { rewrite S6. unfold kin. destruct (GS u v I) as (H & _). unfold here in H. destruct (get (u, v) (u_sub g)); congruence. }
  assert (K2 : kin (v, u) (u_sub t) = true).
  { rewrite S6. unfold kin. destruct (GS v u I') as (H & _). unfold here in H. destruct (get (v, u) (u_sub g)); congruence. }
  destruct (eqb q (v, u)) eqn:Q1. { apply eqb_true in Q1. subst. rewrite K2. auto. }
  destruct (eqb q (u, v)) eqn:Q2. { apply eqb_true in Q2. subst. rewrite K1. auto. }
  auto.
Qed.
Lemma refills_ok l : forall t g, sim t g -> uok g -> (forall e, In e l -> In (snd e) (nbs (u_adj g) (fst e))) -> exists t', foldM refill t l = Ok t' /\ sim t' g.
Proof.
  induction l as [|e l IH]; cbn [foldM]; intros t g S U H; [eauto|].
  destruct (refill_ok e S U) as (t1 & E1 & S1); [apply H; left; auto|]. rewrite E1. cbn [bind]. apply IH; auto. intros x Hx. apply H. right. auto.
Qed.
Lemma edges_in adj x y : NoDup (keys adj) -> In (x, y) (edge_list adj) -> In y (nbs adj x).
Proof.
  intros N H. unfold edge_list in H. apply in_flat_map in H as ([u l] & Hu & H). apply in_map_iff in H as (v & E & Hv). inversion E; subst. cbn [fst snd] in *.
  apply filter_In in Hv as [Hv _]. unfold nbs. rewrite (In_get _ _ _ N Hu). auto.
Qed.
Lemma sim_wc_r t g x y z : sim t (w_cost g x y z) -> sim t g.
Proof. intros [A B C D E F]. split; auto. Qed.
Lemma nodes_ok l : forall t g, sim t g -> uok g -> (forall v, In v l -> inner g v) -> exists t', foldM compute_node_cost t l = Ok t' /\ sim t' g.
Proof.
  induction l as [|v l IH]; cbn [foldM]; intros t g S U H; [eauto|].
  destruct (compute_node_cost_ok (k_graph U) (k_sum U) (H v (or_introl eq_refl))) as (g' & c & E & Eg & _). rewrite Eg in E.
  destruct (node_sim v S E) as (t1 & E1 & S1). rewrite E1. cbn [bind]. apply IH; auto; [eapply sim_wc_r, S1|]. intros x Hx. apply H. right. auto.
Qed.
Definition inv (n : nat) (stem : list nat) (t : uct) : Prop :=
  exists g, sim t g /\ uok g /\ u_n g = n /\ costed g /\ listed g /\ simple_path (nbs (u_adj g)) stem.
Lemma without_ok n stem t a : inv n stem t -> exists t', without t a = Ok t' /\ inv n stem t'.
Proof.
  intros (g & S & U & N & C & L & P). unfold without. set (t0 := w_leaf t _).
  assert (S0 : sim t0 g). { destruct S as [S1 S2 S3 S4 S5 S6]. split; cbn [t0 w_leaf u_n u_adj u_par u_root u_leaf u_sub]; auto. rewrite map_length. auto. }
  destruct (@refills_ok (edge_list (u_adj t0)) t0 g S0 U) as (t1 & E1 & S1).
  { intros [x y] Hx. cbn [fst snd]. apply edges_in; [exact L|]. rewrite <- (sim_adj S0). auto. }
  rewrite E1. cbn [bind]. destruct (compute_root_cost_ok (k_graph U) (k_sum U)) as (g' & E & Eg & _). rewrite Eg in E.
  destruct (root_sim S1 E) as (t2 & E2 & S2). rewrite E2. cbn [bind]. apply sim_wc_r in S2.
  destruct (@nodes_ok (seq (u_n t2) (u_n t2 - 2)) t2 g S2 U) as (t3 & E3 & S3).
  { intros v Hv. rewrite (sim_n S2) in Hv. apply (c_inner (k_sum U)). apply C. auto. }
  exists t3. split; auto. exists g. auto 10.
Qed.

(** ** switching along the stem *)
Section Loops.
  Variables (n : nat) (stem : list nat).
  Notation len := (length stem).
  Notation inv := (inv n stem).
  Lemma switch_at_ok t i : inv t -> 1 <= i -> i + 2 < len -> exists t', switch_at stem t i = Ok t' /\ inv t'.
  Proof.
    intros (g & S & U & N & C & L & P) H1 H2. destruct (@op_ok g stem (UBranches i) U P) as (g' & stem' & E & U' & F & P').
    { cbn [allowed]. auto. }
    cbn [do_uop] in E. destruct (branches_sim _ _ S E) as (t' & E' & S'). unfold switch_at. rewrite E'. cbn [bind fst].
    exists t'. split; auto. assert (stem' = stem).
    { revert E. unfold switch_branches. destruct (slice stem (i - 1) 4) as [|? [|? [|? [|? [|]]]]]; try (intros Q; discriminate Q).
      destruct (third _ _ _ _); [|intros Q; discriminate Q]. cbn [bind]. destruct (third _ _ _ _); [|intros Q; discriminate Q]. cbn [bind].
      destruct (switch_edges _ _ _ _ _); [|intros Q; discriminate Q]. cbn [bind]. intros Q. inversion Q. auto. }
    subst stem'. exists g'. split; auto. split; auto. destruct F as (F & _). split; [congruence|]. split; [eapply branches_keys; eauto|].
    split; auto. eapply branches_listed; eauto.
  Qed.
  Lemma switches_ok l : forall t, inv t -> (forall i, In i l -> 1 <= i /\ i + 2 < len) -> exists t', switches stem t l = Ok t' /\ inv t'.
  Proof.
    unfold switches. induction l as [|i l IH]; cbn [foldM]; intros t I H; [eauto|].
    destruct (H i (or_introl eq_refl)) as [H1 H2]. destruct (switch_at_ok I H1 H2) as (t1 & E & I1). rewrite E. cbn [bind].
    apply IH; auto. intros j Hj. apply H. right. auto.
  Qed.
  Lemma try_ok bs : forall t cur, inv t -> (forall b i, In b bs -> In i b -> 1 <= i /\ i + 2 < len) ->
    exists t' cur' ok, try_blocks stem t cur bs = Ok (t', cur', ok) /\ inv t'.
  Proof.
    induction bs as [|b bs IH]; cbn [try_blocks]; intros t cur I H; [eauto 6|].
    destruct (@switches_ok b t I) as (t1 & E1 & I1). { intros i Hi. apply (H b); [left|]; auto. }
    rewrite E1. cbn [bind]. destruct (u_cost t1 <=? cur)%Z; [eauto 6|].
    destruct (@switches_ok (rev b) t1 I1) as (t2 & E2 & I2). { intros i Hi. apply (H b); [left; auto|]. now apply in_rev. }
    rewrite E2. cbn [bind]. apply IH; auto. intros b' i Hb Hi. apply (H b'); [right|]; auto.
  Qed.
  Lemma range_In a b i : In i (range a b) <-> a <= i < b.
  Proof. unfold range. rewrite in_seq. lia. Qed.
  Lemma pull_down_ok fuel : forall t cur ii, inv t -> ii <= fuel -> ii + 2 < len ->
    exists t' cur' ii', pull_down stem fuel t cur ii = Ok (t', cur', ii') /\ inv t' /\ ii' <= ii.
  Proof.
    induction fuel as [|fuel IH]; cbn [pull_down]; intros t cur ii I F L; destruct (3 <? ii) eqn:Q; try (now eauto 8).
    { apply Nat.ltb_lt in Q. lia. }
    apply Nat.ltb_lt in Q. destruct (@try_ok (map (fun k => range k ii) (rev (range 3 ii))) t cur I) as (t1 & c1 & ok & E & I1).
    { intros b i Hb Hi. apply in_map_iff in Hb as (k & <- & Hk). apply in_rev, range_In in Hk. apply range_In in Hi. lia. }
    rewrite E. cbn [bind]. destruct ok; [|eauto 8]. destruct (IH t1 c1 (ii - 1) I1) as (t2 & c2 & i2 & E2 & I2 & L2); try lia.
    rewrite E2. exists t2, c2, i2. split; auto. split; auto. lia.
  Qed.
  Lemma sweep_ok l : forall t cur sss, inv t -> (forall i, In i l -> 1 <= i /\ i + 2 < len) ->
    exists t' cur' s', sweep stem t cur sss l = Ok (t', cur', s') /\ inv t' /\ (s' = sss \/ In s' l).
  Proof.
    induction l as [|k l IH]; cbn [sweep]; intros t cur sss I H; [eauto 8|].
    destruct (H k (or_introl eq_refl)) as [H1 H2]. destruct (switch_at_ok I H1 H2) as (t1 & E & I1). rewrite E. cbn [bind].
    assert (H' : forall i, In i l -> 1 <= i /\ i + 2 < len) by (intros j Hj; apply H; right; auto).
    destruct (u_cost t1 <=? cur)%Z.
    - destruct (IH t1 (u_cost t1) k I1 H') as (t2 & c2 & s2 & E2 & I2 & [L2|L2]); rewrite E2; exists t2, c2, s2; simpl; intuition.
    - destruct (IH t1 cur sss I1 H') as (t2 & c2 & s2 & E2 & I2 & L2). rewrite E2. exists t2, c2, s2. simpl. intuition.
  Qed.
  Lemma shift_in_ok fuel : forall t cur i, inv t -> i <= fuel -> i + 2 < len ->
    exists t' cur', shift_in stem fuel t cur i = Ok (t', cur') /\ inv t'.
  Proof.
    induction fuel as [|fuel IH]; cbn [shift_in]; intros t cur i I F L; destruct (5 <? i) eqn:Q; try (now eauto 8).
    { apply Nat.ltb_lt in Q. lia. }
    apply Nat.ltb_lt in Q. destruct (@pull_down_ok i t cur i I) as (t1 & c1 & i1 & E1 & I1 & L1); auto. rewrite E1. cbn [bind].
    destruct (@sweep_ok (rev (range 6 (i1 + 1))) t1 c1 (i1 + 1) I1) as (t2 & c2 & i2 & E2 & I2 & L2).
    { intros k Hk. apply in_rev, range_In in Hk. lia. }
    rewrite E2. cbn [bind]. assert (L3 : i2 <= i1 + 1). { destruct L2 as [->|L2]; auto. apply in_rev, range_In in L2. lia. }
    destruct (@switches_ok (range 6 i2) t2 I2) as (t3 & E3 & I3). { intros k Hk. apply range_In in Hk. lia. }
    rewrite E3. cbn [bind]. destruct (i <=? i2) eqn:Q2; [eauto|]. apply Nat.leb_gt in Q2. apply IH; auto; lia.
  Qed.
  Lemma pull_up_ok fuel : forall t cur jj, inv t -> len <= fuel + jj -> 1 <= jj ->
    exists t' cur' jj', pull_up stem fuel t cur jj = Ok (t', cur', jj') /\ inv t' /\ jj <= jj'.
  Proof.
    induction fuel as [|fuel IH]; cbn [pull_up]; intros t cur jj I F L; destruct (jj + 3 <? len) eqn:Q; try (now eauto 8).
    { apply Nat.ltb_lt in Q. lia. }
    apply Nat.ltb_lt in Q. destruct (@try_ok (map (fun k => rev (range jj k)) (range (jj + 1) (len - 1))) t cur I) as (t1 & c1 & ok & E & I1).
    { intros b i Hb Hi. apply in_map_iff in Hb as (k & <- & Hk). apply range_In in Hk. apply in_rev, range_In in Hi. lia. }
    rewrite E. cbn [bind]. destruct ok; [|eauto 8]. destruct (IH t1 c1 (jj + 1) I1) as (t2 & c2 & i2 & E2 & I2 & L2); try lia.
    rewrite E2. exists t2, c2, i2. split; auto. split; auto. lia.
  Qed.
  Lemma shift_out_ok fuel : forall t cur j, inv t -> len <= fuel + j -> 1 <= j ->
    exists t' cur', shift_out stem fuel t cur j = Ok (t', cur') /\ inv t'.
  Proof.
    induction fuel as [|fuel IH]; cbn [shift_out]; intros t cur j I F L; destruct (j + 5 <? len) eqn:Q; try (now eauto 8).
    { apply Nat.ltb_lt in Q. lia. }
    apply Nat.ltb_lt in Q. destruct (@pull_up_ok len t cur j I) as (t1 & c1 & j1 & E1 & I1 & L1); try lia. rewrite E1. cbn [bind].
    destruct (@sweep_ok (range j1 (len - 5)) t1 c1 (j1 - 1) I1) as (t2 & c2 & j2 & E2 & I2 & L2).
    { intros k Hk. apply range_In in Hk. lia. }
    rewrite E2. cbn [bind].
    destruct (@switches_ok (rev (range (j2 + 1) (len - 5))) t2 I2) as (t3 & E3 & I3). { intros k Hk. apply in_rev, range_In in Hk. lia. }
    rewrite E3. cbn [bind]. destruct (j2 <=? j) eqn:Q2; [eauto|]. apply Nat.leb_gt in Q2. apply IH; auto; lia.
  Qed.
  Lemma path_ok t : inv t -> exists q, get_path t = Ok q /\ valid_lin n q /\ UctSpec.pairwise q.
  Proof.
    intros (g & S & U & N & C & L & P). rewrite (path_sim S). destruct (uok_path U) as (q & T & E & V & W & _). rewrite N in V. eauto.
  Qed.
  Variable accept : Z -> Z -> bool.
  Definition alt_ok (A : list nat) (q : nat * (Z * lpath)) : Prop := In (fst q) A /\ valid_lin n (snd (snd q)) /\ UctSpec.pairwise (snd (snd q)).
  Lemma Forall_set {K V} `{Eqb K} (P : K * V -> Prop) k v l : Forall P l -> P (k, v) -> Forall P (set k v l).
  Proof.
    intros F HP. induction F as [|[k' v'] l Hq F IH]; cbn [set]; [repeat constructor; auto|]. destruct (eqb k k') eqn:E; constructor; auto.
    apply eqb_true in E. subst. auto.
  Qed.
  Lemma set_nonempty {K V} `{Eqb K} k (v : V) (l : list (K * V)) : set k v l <> [].
  Proof. destruct l as [|[k' v'] l]; cbn [set]; [discriminate|]. destruct (eqb k k'); discriminate. Qed.
  Lemma pick_ok A ss : forall t c got alts, inv t -> (forall a i j, In (a, i, j) ss -> i + 2 < len /\ 1 <= j /\ In a A) ->
    incl got A -> Forall (alt_ok A) alts ->
    exists t' got' alts', pick_edges accept stem ss t c got alts = Ok (t', got', alts') /\ inv t' /\ incl got' A /\ Forall (alt_ok A) alts' /\
      length got' <= length got + length ss /\ (got <> [] \/ alts <> [] \/ ss <> [] -> got' <> [] \/ alts' <> []) /\
      (ss = [] -> got' = got /\ alts' = alts).
  Proof.
    induction ss as [|[[a i] j] ss IH]; cbn [pick_edges]; intros t c got alts I H G F.
    { exists t, got, alts. split; auto. split; auto. split; auto. split; auto. split; [simpl; lia|]. split; [tauto|auto]. }
    destruct (H a i j (or_introl eq_refl)) as (Hi & Hj & HA). assert (H' : forall a i j, In (a, i, j) ss -> i + 2 < len /\ 1 <= j /\ In a A) by (intros; apply H; right; auto).
    destruct (without_ok a I) as (t1 & E1 & I1). rewrite E1. cbn [bind]. destruct (path_ok I1) as (q0 & E0 & _). rewrite E0. cbn [bind].
    destruct (@shift_in_ok len t1 (u_cost t1) i I1) as (t2 & c2 & E2 & I2); try lia. rewrite E2. cbn [bind fst snd].
    destruct (@shift_out_ok len t2 c2 j I2) as (t3 & c3 & E3 & I3); try lia. rewrite E3. cbn [bind fst snd].
    destruct (accept c3 c).
    - destruct (IH t3 c3 (got ++ [a]) alts I3 H') as (t' & got' & alts' & E & Q1 & Q2 & Q3 & Q4 & Q5 & Q6); auto.
      { intros x Hx. apply in_app_iff in Hx as [Hx|[<-|[]]]; auto. }
      exists t', got', alts'. split; auto. split; auto. split; auto. split; auto. rewrite app_length in Q4. cbn [length] in *. split; [lia|]. split; [|discriminate].
      intros _. apply Q5. left. destruct got; discriminate.
    - destruct (path_ok I3) as (q & Eq & Vq & Wq). rewrite Eq. cbn [bind].
      destruct (IH t c got (set a (c3, q) alts) I H') as (t' & got' & alts' & E & Q1 & Q2 & Q3 & Q4 & Q5 & Q6); auto.
      { apply Forall_set; auto. split; cbn [fst snd]; auto. }
      exists t', got', alts'. split; auto. split; auto. split; auto. split; auto. cbn [length]. split; [lia|]. split; [|discriminate].
      intros _. apply Q5. right. left. apply set_nonempty.
  Qed.
End Loops.
