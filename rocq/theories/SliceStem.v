(** * The stem of a tree, and the subscripts that leave it *)
From Coq Require Import List Arith ZArith Lia Bool Permutation Sorted.
From Verif Require Import Base PathSpec UctSpec ModelOrder ModelPath ModelOpt PathProofs OptProofs OrderProofs DPProofs DPProofs2 DPProofs3 ModelUct UctProofs UctPath UctSwitch UctSwitch2 UctSwitch3 UctInit UctInit2 UctOps UctHist UctCost OrderSpec ModelTN ModelContract ModelScheme ModelSlice SliceSim SliceTree.
Import ListNotations.
Set Implicit Arguments.
Open Scope nat_scope.

Lemma max_pair_snd a b : max_pair a b = a \/ max_pair a b = b.
Proof. unfold max_pair. destruct (_ || _)%bool; auto. Qed.
Lemma max_first_is a b : max_first a b = a \/ max_first a b = b.
Proof. unfold max_first. destruct (_ <? _)%Z; auto. Qed.
Lemma cost_here t v : uok t -> u_n t <= v -> nbs (u_adj t) v <> [] -> exists z, get v (u_ncost t) = Some z.
Proof.
  intros U L N. destruct (g_view (k_graph U)) as (a & b & V & _). destruct (proj2 (g_par (k_graph U)) v N) as (p & Ep & Ip).
  destruct (@reroot _ _ _ _ _ _ V Ip) as (a' & b' & (Ha & _) & Ea & Eb & _). destruct a' as [i|w l r]; cbn [uid] in Ea; subst.
  { destruct Ha as [Ha _]. lia. }
  destruct Ha as (_ & Pm & _). rewrite (@k_node t U v _ _ _ Ep Pm). eauto.
Qed.
Lemma stem_in_ok t s : uok t -> forall p fuel, hang (u_n t) (nbs (u_adj t)) p s -> NoDup (ids s) -> ~ In p (ids s) -> height s <= fuel ->
  exists r, stem_in fuel (u_n t) (u_adj t) (u_ncost t) p (uid s) = Ok r /\
    In (snd (fst (fst r))) (lvs s) /\ In (snd (fst r)) (lvs s) /\ In (snd (snd r)) (lvs s).
Proof.
  intros U. induction s as [i|v l IHl r IHr]; intros p fuel H ND Np F; cbn [uid].
  - destruct H as [H _]. destruct fuel; cbn [stem_in]; unfold is_leaf; rewrite (proj2 (Nat.ltb_lt i _) H); eexists; (split; [reflexivity|]); cbn [fst snd lvs]; simpl; auto.
  - cbn [height] in F. destruct fuel as [|fuel]; [lia|]. pose proof H as (Lv & Pm & Hl & Hr). cbn [stem_in]. unfold is_leaf. rewrite (proj2 (Nat.ltb_ge v _) Lv).
    cbn [ids] in *. inversion ND as [|? ? Nv ND1]; subst. rewrite in_app_iff in Nv. apply NoDup_app_iff in ND1 as (Nl & Nr & D). simpl in Np. rewrite in_app_iff in Np.
    destruct (@cost_here t v U Lv) as (z & Ez). { intros E. rewrite E in Pm. apply Permutation_nil in Pm. discriminate. }
    assert (N2 : p <> uid l) by (intros ->; apply Np; right; left; apply uid_in). assert (N3 : p <> uid r) by (intros ->; apply Np; right; right; apply uid_in).
    destruct (IHl v fuel Hl Nl) as (ra & Ea & A1 & A2 & A3); [tauto|lia|]. destruct (IHr v fuel Hr Nr) as (rb & Eb & B1 & B2 & B3); [tauto|lia|].
    rewrite Ez. destruct (others_two _ _ N2 N3 Pm) as [O|O]; rewrite O; [rewrite Ea; cbn [bind]; rewrite Eb; cbn [bind]|rewrite Eb; cbn [bind]; rewrite Ea; cbn [bind]];
      eexists; (split; [reflexivity|]); cbn [fst snd lvs]; rewrite !in_app_iff.
    + repeat split.
      * destruct (max_first_is (max_first (fst ra) (fst rb)) ((fst (snd ra) + fst (snd rb) + z)%Z, snd (snd ra), snd (snd rb))) as [-> | ->]; cbn [fst snd]; auto.
        destruct (max_first_is (fst ra) (fst rb)) as [-> | ->]; auto.
      * destruct (max_first_is (max_first (fst ra) (fst rb)) ((fst (snd ra) + fst (snd rb) + z)%Z, snd (snd ra), snd (snd rb))) as [-> | ->]; cbn [fst snd]; auto.
        destruct (max_first_is (fst ra) (fst rb)) as [-> | ->]; auto.
      * destruct (max_pair_snd (snd ra) (snd rb)) as [-> | ->]; auto.
    + repeat split.
      * destruct (max_first_is (max_first (fst rb) (fst ra)) ((fst (snd rb) + fst (snd ra) + z)%Z, snd (snd rb), snd (snd ra))) as [-> | ->]; cbn [fst snd]; auto.
        destruct (max_first_is (fst rb) (fst ra)) as [-> | ->]; auto.
      * destruct (max_first_is (max_first (fst rb) (fst ra)) ((fst (snd rb) + fst (snd ra) + z)%Z, snd (snd rb), snd (snd ra))) as [-> | ->]; cbn [fst snd]; auto.
        destruct (max_first_is (fst rb) (fst ra)) as [-> | ->]; auto.
      * destruct (max_pair_snd (snd rb) (snd ra)) as [-> | ->]; auto.
Qed.

(** ** the path between two nodes *)
Fixpoint search (f : nat -> option (list nat)) (x : nat) (l : list nat) : option (list nat) :=
  match l with [] => None | c :: r => match f c with Some p => Some (x :: p) | None => search f x r end end.
Lemma tree_path_S fuel adj prev x y : tree_path (S fuel) adj prev x y =
  if x =? y then Some [x] else search (fun c => tree_path fuel adj x c y) x (others adj x prev).
Proof. cbn [tree_path]. destruct (x =? y); auto. induction (others adj x prev) as [|c r IH]; cbn [search]; auto. destruct (tree_path fuel adj x c y); auto. Qed.
Definition routed (A : nat -> list nat) (s : ut) (y : nat) (q : list nat) : Prop :=
  (exists r, q = uid s :: r) /\ incl q (ids s) /\ NoDup q /\ chain A q /\ last q 0 = y.
Lemma others_leaf adj i p : nbs adj i = [p] -> others adj i p = [].
Proof. intros E. unfold others. rewrite E. cbn [filter]. rewrite Nat.eqb_refl. auto. Qed.
Lemma tree_path_sound n adj y fuel : forall p s q, hang n (nbs adj) p s -> NoDup (p :: ids s) -> tree_path fuel adj p (uid s) y = Some q -> routed (nbs adj) s y q.
Proof.
  assert (B : forall s, routed (nbs adj) s (uid s) [uid s]).
  { intros s. split; [eauto|]. split; [intros z [<-|[]]; apply uid_in|]. split; [repeat constructor; intros []|]. split; [exact I|auto]. }
  induction fuel as [|fuel IH]; intros p s q H ND E; [|rewrite tree_path_S in E].
  - cbn [tree_path] in E. destruct (uid s =? y) eqn:Q; [|discriminate E]. apply Nat.eqb_eq in Q. inversion E; subst. apply B.
  - destruct (uid s =? y) eqn:Q. { apply Nat.eqb_eq in Q. inversion E; subst. apply B. }
    destruct s as [i|v l r]; cbn [uid] in E.
    { destruct H as [_ H]. rewrite (others_leaf _ _ H) in E. discriminate E. }
    pose proof H as (Lv & Pm & Hl & Hr). cbn [ids] in *. inversion ND as [|? ? Np ND0]; subst. inversion ND0 as [|? ? Nv ND1]; subst. rewrite in_app_iff in Nv. apply NoDup_app_iff in ND1 as (Nl & Nr & D). simpl in Np. rewrite in_app_iff in Np.
    assert (N2 : p <> uid l) by (intros ->; apply Np; right; left; apply uid_in). assert (N3 : p <> uid r) by (intros ->; apply Np; right; right; apply uid_in).
    assert (G : forall c, c = l \/ c = r -> forall q, tree_path fuel adj v (uid c) y = Some q -> routed (nbs adj) (UN v l r) y (v :: q)).
    { intros c Hc q' E'. assert (Hh : hang n (nbs adj) v c /\ NoDup (v :: ids c) /\ incl (ids c) (ids l ++ ids r) /\ In (uid c) (nbs adj v) /\ ~ In v (ids c)).
      { destruct Hc as [-> | ->]; (split; [assumption|]); (split; [constructor; tauto|]); (split; [intros z Hz; rewrite in_app_iff; auto|]); (split; [rewrite Pm; simpl; auto|tauto]). }
      destruct Hh as (Hh & NDc & Ic & Iv & Nvc). destruct (IH v c q' Hh NDc E') as ((r' & ->) & R1 & R2 & R3 & R4). split; [cbn [uid]; eauto|]. split.
      { cbn [ids]. intros z [<-|Hz]; [left; auto|]. right. apply Ic, R1, Hz. }
      split; [constructor; auto|]. split; [split; auto|]. cbn [last]. cbn [last] in R4. auto. }
    destruct (others_two _ _ N2 N3 Pm) as [O|O]; rewrite O in E; cbn [search] in E.
    + destruct (tree_path fuel adj v (uid l) y) eqn:E1; [inversion E; subst; apply (G l); auto|]. destruct (tree_path fuel adj v (uid r) y) eqn:E2; [|discriminate E]. inversion E; subst; apply (G r); auto.
    + destruct (tree_path fuel adj v (uid r) y) eqn:E1; [inversion E; subst; apply (G r); auto|]. destruct (tree_path fuel adj v (uid l) y) eqn:E2; [|discriminate E]. inversion E; subst; apply (G l); auto.
Qed.
Lemma tree_path_complete n adj y s : forall p fuel, hang n (nbs adj) p s -> NoDup (p :: ids s) -> In y (ids s) -> height s <= fuel -> exists q, tree_path fuel adj p (uid s) y = Some q.
Proof.
  induction s as [i|v l IHl r IHr]; intros p fuel H ND Hy F.
  - destruct Hy as [<-|[]]. destruct fuel; cbn [tree_path uid]; rewrite Nat.eqb_refl; eauto.
  - cbn [height] in F. destruct fuel as [|fuel]; [lia|]. rewrite tree_path_S. cbn [uid]. destruct (v =? y) eqn:Q; [eauto|]. apply Nat.eqb_neq in Q.
    pose proof H as (Lv & Pm & Hl & Hr). cbn [ids] in *. inversion ND as [|? ? Np ND0]; subst. inversion ND0 as [|? ? Nv ND1]; subst. rewrite in_app_iff in Nv. apply NoDup_app_iff in ND1 as (Nl & Nr & D). simpl in Np. rewrite in_app_iff in Np.
    assert (N2 : p <> uid l) by (intros ->; apply Np; right; left; apply uid_in). assert (N3 : p <> uid r) by (intros ->; apply Np; right; right; apply uid_in).
    destruct Hy as [Hy|Hy]; [congruence|]. apply in_app_iff in Hy.
    assert (S2 : forall a b, (exists q, tree_path fuel adj v a y = Some q) \/ (exists q, tree_path fuel adj v b y = Some q) -> exists q, search (fun c => tree_path fuel adj v c y) v [a; b] = Some q).
    { intros a b Hab. cbn [search]. destruct (tree_path fuel adj v a y); [eauto|]. destruct (tree_path fuel adj v b y); [eauto|]. destruct Hab as [[q E]|[q E]]; discriminate E. }
    destruct (others_two _ _ N2 N3 Pm) as [O|O]; rewrite O; apply S2; destruct Hy as [Hy|Hy].
    + left. apply IHl; auto; [constructor; tauto|lia].
    + right. apply IHr; auto; [constructor; tauto|lia].
    + right. apply IHl; auto; [constructor; tauto|lia].
    + left. apply IHr; auto; [constructor; tauto|lia].
Qed.
Lemma detect_ok t : uok t -> 2 <= u_n t -> exists stem, detect_stem t = Ok stem /\ simple_path (nbs (u_adj t)) stem.
Proof.
  intros U N. destruct (g_view (k_graph U)) as (a & b & V & _).
  assert (A0 : forall i, i < u_n t -> exists p, nbs (u_adj t) i = [p]).
  { intros i Hi. apply (view_leaf _ V); auto. pose proof V as (Ha & Hb & _ & _ & PL). assert (Hx : In i (lvs a ++ lvs b)). { rewrite PL. apply in_seq. lia. }
    assert (G : forall s p, hang (u_n t) (nbs (u_adj t)) p s -> In i (lvs s) -> nbs (u_adj t) i <> []).
    { induction s as [j|v l IHl r IHr]; cbn [lvs hang]; intros p H I; [destruct I as [<-|[]]; destruct H as [_ ->]; discriminate|].
      destruct H as (_ & _ & Hl & Hr). apply in_app_iff in I as [I|I]; eauto. }
    apply in_app_iff in Hx as [Hx|Hx]; eauto. }
  assert (Hh : forall a b, view (u_n t) (nbs (u_adj t)) a b -> height b <= 2 * u_n t /\ height b < u_n t).
  { intros x y (_ & _ & _ & _ & PL). apply Permutation_length in PL. rewrite app_length, seq_length in PL. pose proof (height_lvs y). lia. }
  destruct (A0 0) as (p0 & E0); [lia|]. destruct (proj2 (g_par (k_graph U)) 0) as (p & Ep & Ip); [rewrite E0; discriminate|].
  unfold detect_stem. rewrite Ep.
  destruct (@reroot _ _ _ _ _ _ V Ip) as (a' & b' & V' & Ea & Eb & _). subst p.
  pose proof V' as (Ha & Hb & ND & _). rewrite Ea in Hb. apply NoDup_app_iff in ND as (Na & Nb & D).
  destruct (@stem_in_ok t b' U 0 (2 * u_n t) Hb Nb) as (r & E & R1 & R2 & _).
  { rewrite <- Ea. intros I. apply (D _ (uid_in a') I). } { apply (Hh _ _ V'). }
  rewrite E. cbn [bind]. set (e0 := snd (fst (fst r))) in *. set (e1 := snd (fst r)) in *.
  assert (L0 : e0 < u_n t). { pose proof V' as (_ & _ & _ & _ & PL). assert (Hx : In e0 (lvs a' ++ lvs b')) by (rewrite in_app_iff; auto). rewrite PL in Hx. apply in_seq in Hx. lia. }
  destruct (2 * u_n t) as [|f] eqn:F; [lia|]. rewrite tree_path_S. destruct (e0 =? e1) eqn:Q.
  { exists [e0]. split; auto. rewrite simple_chain. split; [repeat constructor; intros []|exact I]. }
  apply Nat.eqb_neq in Q. destruct (A0 e0 L0) as (c & Ec). assert (Ic : In c (nbs (u_adj t) e0)) by (rewrite Ec; left; auto).
  assert (Nc : c <> e0). { intros ->. apply (proj2 (view_edge _ _ V Ic)). auto. }
  assert (O : others (u_adj t) e0 e0 = [c]). { unfold others. rewrite Ec. cbn [filter]. rewrite (proj2 (Nat.eqb_neq _ _) Nc). auto. }
  rewrite O. cbn [search].
  destruct (@reroot _ _ _ _ _ _ V Ic) as (a2 & b2 & V2 & Ea2 & Eb2 & _). pose proof V2 as (Ha2 & Hb2 & ND2 & Cov & _).
  assert (NDb : NoDup (e0 :: ids b2)). { apply NoDup_app_iff in ND2 as (_ & Nb2 & D2). constructor; auto. rewrite <- Ea2. intros I. apply (D2 _ (uid_in a2) I). }
  assert (I1 : In e1 (ids b2)).
  { assert (H1 : In e1 (ids a2 ++ ids b2)). { apply Cov. destruct (A0 e1) as (z & ->); [|discriminate]. pose proof V' as (_ & _ & _ & _ & PL). assert (Hx : In e1 (lvs a' ++ lvs b')) by (rewrite in_app_iff; auto). rewrite PL in Hx. apply in_seq in Hx. lia. }
    apply in_app_iff in H1 as [H1|H1]; auto. destruct a2 as [i|v l' r']; cbn [uid] in Ea2; subst; [destruct H1 as [H1|[]]; congruence|]. destruct Ha2 as (Hv & _). lia. }
  rewrite Ea2 in Hb2. destruct (@tree_path_complete _ _ e1 b2 e0 f Hb2 NDb I1) as (q & Eq). { pose proof (Hh _ _ V2). lia. }
  rewrite Eb2 in Eq. rewrite Eq. exists (e0 :: q). split; auto. rewrite simple_chain.
  rewrite <- Eb2 in Eq. destruct (@tree_path_sound _ _ _ _ _ _ _ Hb2 NDb Eq) as ((q' & ->) & R3 & R4 & R5 & _). inversion NDb; subst. split.
  - constructor; auto.
  - split; auto.
Qed.

(** ** the subscripts that leave the stem *)
Section Scan.
  Variables (sord : list nat -> list nat) (t : uct) (stem : list nat) (lhs : list (list nat)).
  Hypothesis Hsord : forall l x, In x (sord l) <-> In x l.
  Hypothesis U : uok t.
  Hypothesis Hl : u_leaf t = map mkset lhs.
  Hypothesis Hn : u_n t = length lhs.
  Hypothesis SP : simple_path (nbs (u_adj t)) stem.
  Notation A := (nbs (u_adj t)).
  Definition occurs (a : nat) : Prop := exists s, In s lhs /\ In a s.
  Lemma all_subs_in s a p : hang (u_n t) A p s -> In a (all_subs (fun i => nth i lhs []) (shape s)) -> occurs a.
  Proof.
    revert p. induction s as [i|v l IHl r IHr]; cbn [shape all_subs hang flat_map]; intros p H I.
    - destruct H as [H _]. exists (nth i lhs []). split; auto. apply nth_In. lia.
    - destruct H as (_ & _ & H1 & H2). rewrite app_nil_r in I. apply in_app_iff in I as [I|I]; eauto.
  Qed.
  Lemma sees p v : In v (A p) -> open_at (u_n t) (u_open t) (u_sub t) p v = Ok (ov (u_n t) (u_open t) (u_sub t) p v) /\
    forall a, In a (ov (u_n t) (u_open t) (u_sub t) p v) -> occurs a.
  Proof.
    intros I. destruct (g_view (k_graph U)) as (a & b & V & _). destruct (view_edge _ _ V I) as [I' Ne]. pose proof (g_sub (k_graph U)) as GS.
    split; [apply open_at_ok; [apply (GS p v I)|apply (GS v p I')]|].
    intros x Hx. assert (Hs : In x (sv (u_sub t) p v)). { unfold ov in Hx. destruct (v <? u_n t); auto. apply sinter_In in Hx. tauto. }
    destruct (@reroot _ _ _ _ _ _ V I) as (a' & b' & (_ & Hb & _) & <- & <- & _).
    apply (@seen_subs t lhs U Hl b' (uid a') Hb I) in Hs. eapply all_subs_in; eauto.
  Qed.
  Definition scanned (i : nat) (st : scan_state) : Prop :=
    (forall a, In a (sn_se st) -> occurs a /\ exists j, get a (sn_in st) = Some j /\ j < i) /\
    (forall a j k, In (a, j, k) (sn_out st) -> j < k /\ k < i /\ occurs a).
  Lemma fold_set_get (l : list nat) (i : nat) : forall (d : list (nat * nat)) a, get a (fold_left (fun d a => set a i d) l d) = if mem a l then Some i else get a d.
  Proof.
    induction l as [|x l IH]; cbn [fold_left]; intros d a; [auto|]. rewrite IH, get_set. cbn [mem existsb]. unfold mem. destruct (existsb (eqb a) l); [now rewrite orb_true_r|]. rewrite orb_false_r. auto.
  Qed.
  Lemma scan_ok i st : scanned i st -> i < length stem - 1 -> exists st', scan_one sord t stem st i = Ok st' /\ scanned (S i) st'.
  Proof.
    intros [S1 S2] L. unfold scan_one. destruct (nth_error stem i) as [v|] eqn:Ev; [|apply nth_error_None in Ev; lia].
    assert (Nv : A v <> []).
    { destruct (nth_error stem (S i)) as [w|] eqn:Ew; [|apply nth_error_None in Ew; lia].
      destruct (nth_error_split _ _ Ev) as (s1 & s2 & Es & Ls). destruct s2 as [|w' s2]. { rewrite Es, app_length in L. cbn in L. lia. }
      pose proof (proj2 SP s1 v w' s2 Es) as I. intros E. rewrite E in I. destruct I. }
    destruct (proj2 (g_par (k_graph U)) v Nv) as (p & Ep & Ip). rewrite Ep.
    destruct (g_view (k_graph U)) as (va & vb & V & _). destruct (view_edge _ _ V Ip) as [Ip' _].
    destruct (sees _ _ Ip') as [Eo Ho]. rewrite Eo. cbn [bind]. set (new := ov _ _ _ p v) in *.
    set (ins := fold_left _ _ _).
    assert (G : forall a, get a ins = if mem a (sord (sdiff new (sn_se st))) then Some i else get a (sn_in st)) by (intros a; apply fold_set_get).
    assert (M : exists outs, mapM (fun a => match get a ins with Some j => Ok (a, j, i) | None => Err KeyError end) (sord (sdiff (sn_se st) new)) = Ok outs /\
                forall a j k, In (a, j, k) outs -> j < k /\ k < S i /\ occurs a).
    { assert (Hin : forall a, In a (sord (sdiff (sn_se st) new)) -> exists j, get a ins = Some j /\ j < i /\ occurs a).
      { intros a Ha. apply Hsord, sdiff_In in Ha as [H1 H2]. destruct (S1 a H1) as (Oa & j & Ej & Lj). exists j. split; auto. rewrite G, Ej.
        destruct (mem a (sord (sdiff new (sn_se st)))) eqn:Q; auto. apply mem_In, Hsord, sdiff_In in Q. tauto. }
      induction (sord (sdiff (sn_se st) new)) as [|a l IH]; cbn [mapM]; [exists []; split; auto; intros ? ? ? []|].
      destruct (Hin a (or_introl eq_refl)) as (j & Ej & Lj & Oa). rewrite Ej. cbn [bind]. destruct IH as (o & Eo' & Ho'). { intros x Hx. apply Hin. right. auto. }
      rewrite Eo'. cbn [bind]. eexists. split; [reflexivity|]. intros x y z [E|Hx]; [inversion E; subst; auto|eauto]. }
    destruct M as (outs & Em & Hm). rewrite Em. cbn [bind]. eexists. split; [reflexivity|]. split; cbn [sn_se sn_in sn_out].
    - intros a Ha. split; [auto|]. rewrite G. destruct (mem a (sord (sdiff new (sn_se st)))) eqn:Q; [exists i; split; auto|].
      apply mem_false in Q. destruct (in_dec Nat.eq_dec a (sn_se st)) as [H|H]; [|exfalso; apply Q, Hsord, sdiff_In; auto].
      destruct (S1 a H) as (_ & j & Ej & Lj). exists j. split; auto.
    - intros a j k Hx. apply in_app_iff in Hx as [Hx|Hx]; [|eauto]. destruct (S2 a j k Hx) as (? & ? & ?). split; auto.
  Qed.
  Lemma scans_ok m : forall i st, scanned i st -> i + m <= length stem - 1 -> exists st', foldM (scan_one sord t stem) st (seq i m) = Ok st' /\ scanned (i + m) st'.
  Proof.
    induction m as [|m IH]; cbn [seq foldM]; intros i st S L. { exists st. split; auto. now rewrite Nat.add_0_r. }
    destruct (scan_ok S) as (s1 & E1 & S1); [lia|]. rewrite E1. cbn [bind]. destruct (IH (Datatypes.S i) s1 S1) as (s2 & E2 & S2); [lia|]. exists s2. split; auto.
    now rewrite <- plus_n_Sm.
  Qed.
  Lemma stem_edges_ok : exists ss, stem_edges sord t stem = Ok ss /\ length ss <= 10 /\ forall a i j, In (a, i, j) ss -> i + 2 < length stem /\ 1 <= j /\ occurs a.
  Proof.
    destruct (@scans_ok (length stem - 1) 0 (Scan [] [] [])) as (st & E & S1 & S2). { split; intros ? *; intros []. } { lia. }
    unfold stem_edges. rewrite E. cbn [bind]. eexists. split; [reflexivity|]. split; [rewrite firstn_length; lia|].
    intros a i j H. assert (H' : In (a, i, j) (sn_out st)).
    { eapply Permutation_in; [apply sort_key_perm|]. rewrite <- (firstn_skipn 10). apply in_app_iff. left. exact H. }
    destruct (S2 a i j H') as (? & ? & ?). split; [lia|]. split; [lia|auto].
  Qed.
End Scan.

Theorem slice_tree_ok sord accept lhs rhs p : (forall l x, In x (sord l) <-> In x l) -> 2 <= length lhs -> valid_lin (length lhs) p -> UctSpec.pairwise p ->
  (exists got q, slice_tree sord accept lhs rhs p = Ok (got, q) /\ got <> [] /\ length got <= 10 /\ valid_lin (length lhs) q /\ UctSpec.pairwise q /\
     forall a, In a got -> occurs lhs a) \/
  slice_tree sord accept lhs rhs p = Err IndexError.
Proof.
  intros Hs L V P. destruct (@init_ok lhs rhs p L V P) as (t & a & b & T & E & U & N & _ & Hl & _). unfold slice_tree. rewrite E. cbn [bind].
  destruct (detect_ok U) as (stem & Es & SP); [lia|]. rewrite Es. cbn [bind].
  destruct (@stem_edges_ok sord t stem lhs Hs U Hl N SP) as (ss & Ess & Ls & Hss). rewrite Ess. cbn [bind].
  assert (I : inv (length lhs) stem t). { exists t. split; [apply sim_refl|]. split; auto. split; auto. split; [eapply init_costed; eauto|]. split; [eapply init_listed; eauto|auto]. }
  destruct (@pick_ok (length lhs) stem accept (map (fun x => fst (fst x)) ss) ss t (u_cost t) [] [] I) as (t' & got & alts & Ep & I' & Q1 & Q2 & Q3 & Q4 & Q5).
  { intros x i j Hx. destruct (Hss x i j Hx) as (? & ? & ?). split; auto. split; auto. apply in_map_iff. exists (x, i, j). auto. }
  { intros x []. } { constructor. }
  rewrite Ep. cbn [bind]. assert (Oc : forall x, In x (map (fun x => fst (fst x)) ss) -> occurs lhs x).
  { intros x Hx. apply in_map_iff in Hx as ([[y i] j] & <- & Hx). apply (Hss _ _ _ Hx). }
  destruct got as [|x got].
  - destruct (sort_key (fun x => fst (snd x)) alts) as [|[x [c q]] r] eqn:Ek; [right; auto|]. left. exists [x], q. split; auto. split; [discriminate|]. split; [simpl; lia|].
    assert (Hx : In (x, (c, q)) alts). { eapply Permutation_in; [apply sort_key_perm|]. rewrite Ek. left. auto. }
    rewrite Forall_forall in Q2. destruct (Q2 _ Hx) as (H1 & H2 & H3). cbn [fst snd] in *. split; auto. split; auto. intros z [<-|[]]. auto.
  - left. destruct (path_ok I') as (q & Eq & Vq & Wq). rewrite Eq. cbn [bind]. exists (x :: got), q. split; auto. split; [discriminate|]. split; [cbn [length] in *; lia|]. auto.
Qed.
(** no subscript leaves the stem exactly when the code fails *)
Theorem slice_tree_fails sord accept lhs rhs p t stem : (forall l x, In x (sord l) <-> In x l) -> 2 <= length lhs -> valid_lin (length lhs) p -> UctSpec.pairwise p ->
  uct_init lhs rhs p = Ok t -> detect_stem t = Ok stem ->
  (slice_tree sord accept lhs rhs p = Err IndexError <-> stem_edges sord t stem = Ok []).
Proof.
  intros Hs L V P E Es. destruct (@init_ok lhs rhs p L V P) as (t0 & a & b & T & E0 & U & N & _ & Hl & _). assert (t0 = t) by congruence. subst t0. clear E0.
  destruct (detect_ok U) as (stem0 & Es0 & SP); [lia|]. assert (stem0 = stem) by congruence. subst stem0. clear Es0.
  unfold slice_tree. rewrite E. cbn [bind]. rewrite Es. cbn [bind].
  destruct (@stem_edges_ok sord t stem lhs Hs U Hl N SP) as (ss & Ess & Ls & Hss). rewrite Ess. cbn [bind].
  assert (I : inv (length lhs) stem t). { exists t. split; [apply sim_refl|]. split; auto. split; auto. split; [eapply init_costed; eauto|]. split; [eapply init_listed; eauto|auto]. }
  destruct (@pick_ok (length lhs) stem accept (map (fun x => fst (fst x)) ss) ss t (u_cost t) [] [] I) as (t' & got & alts & Ep & I' & Q1 & Q2 & Q3 & Q4 & Q5).
  { intros x i j Hx. destruct (Hss x i j Hx) as (? & ? & ?). split; auto. split; auto. apply in_map_iff. exists (x, i, j). auto. }
  { intros x []. } { constructor. }
  rewrite Ep. cbn [bind]. split; intros H.
  - destruct ss as [|s ss]; auto. exfalso. destruct got as [|x got].
    + destruct Q4 as [Q4|Q4]; [right; right; discriminate|congruence|]. destruct (sort_key (fun x => fst (snd x)) alts) as [|[x [c q]] r] eqn:Ek; [|discriminate H].
      pose proof (sort_key_perm (fun x => fst (snd x)) alts) as Pk. rewrite Ek in Pk. apply Permutation_nil in Pk. congruence.
    + destruct (path_ok I') as (q & Eq & Vq & Wq). rewrite Eq in H. discriminate H.
  - inversion H; subst. destruct (Q5 eq_refl) as [-> ->]. reflexivity.
Qed.
