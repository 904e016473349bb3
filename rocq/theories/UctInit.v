(** * step_root and the construction of the tree establish the invariant *)
From Coq Require Import List Arith ZArith Lia Bool Permutation Sorted.
From Verif Require Import Base PathSpec UctSpec ModelOrder ModelPath ModelOpt PathProofs OptProofs DPProofs DPProofs2 ModelUct UctProofs UctPath UctSwitch UctSwitch2 UctSwitch3.
Import ListNotations.
Set Implicit Arguments.
Open Scope nat_scope.

Theorem step_ok t u v : uok t -> u = fst (u_root t) \/ u = snd (u_root t) -> In v (nbs (u_adj t) u) -> u_n t <= u ->
  exists t', step_root t u v = Ok t' /\ uok t' /\ same_frame t t' /\ u_adj t' = u_adj t /\ u_root t' = (u, v).
Proof.
  intros [G CS RC NC] Iu Iv Lu. destruct (g_view G) as (a & b & V & Er). pose proof (g_par G) as K. destruct (g_root G) as [Ra Rb].
  assert (Iab : In (snd (u_root t)) (nbs (u_adj t) (fst (u_root t)))). { rewrite <- Er. destruct V as (H & _). now apply hang_in in H. }
  assert (exists w, get u (u_par t) = Some w /\ get w (u_par t) = Some u /\ w <> u) as (w & W1 & W2 & W3).
  { pose proof (view_edge (fst (u_root t)) (snd (u_root t)) V Iab) as [_ Ne].
    destruct Iu as [-> | ->]; [exists (snd (u_root t))|exists (fst (u_root t))]; repeat split; auto. }
  pose proof (view_edge u v V Iv) as [Ivu Nuv].
  set (par' := set u v (u_par t)).
  assert (Pn : forall z, z <> u -> get z par' = get z (u_par t)) by (intros z N; apply get_set_neq; congruence).
  assert (K' : par_ok (nbs (u_adj t)) (fun z => get z par')).
  { split.
    - intros p q H. destruct (view_edge p q V H) as [_ Npq]. destruct (proj1 K p q H) as [E|E].
      + destruct (Nat.eq_dec p u) as [->|Np]; [right|left; rewrite Pn; auto]. assert (q = w) by congruence. subst q. rewrite Pn; auto.
      + destruct (Nat.eq_dec q u) as [->|Nq]; [left|right; rewrite Pn; auto]. assert (p = w) by congruence. subst p. rewrite Pn; auto.
    - intros z Hz. destruct (Nat.eq_dec z u) as [->|N]; [exists v; split; auto; apply get_set_eq|]. rewrite Pn by auto. apply (proj2 K z Hz). }
  assert (Pv : get v par' = Some u).
  { rewrite Pn by congruence. destruct (Nat.eq_dec v w) as [->|N]; auto. destruct (proj1 K u v Iv) as [E|E]; congruence. }
  set (t1 := w_graph t (u_adj t) par' (u, v) (u_sub t)).
  assert (G1 : gok t1).
  { split; cbn [t1 w_graph u_n u_adj u_root u_par u_sub u_leaf fst snd]; auto.
    - destruct (@reroot _ _ _ _ u v V Iv) as (a' & b' & Va & Ea & Eb & _). exists a', b'. split; congruence.
    - split; auto. apply get_set_eq.
    - apply (g_sub G). }
  assert (C1 : csum t1) by (destruct CS as [C1 C2 C3]; split; auto).
  assert (I1 : inner t1 u) by (split; auto; cbn [t1 w_graph u_adj]; intros E; rewrite E in Iv; destruct Iv).
  unfold step_root. assert (Eg : negb ((u =? fst (u_root t)) || (u =? snd (u_root t))) = false).
  { apply negb_false_iff, orb_true_iff. rewrite !Nat.eqb_eq. auto. }
  rewrite Eg. fold par'. fold t1.
  destruct (compute_node_cost_ok G1 C1 I1) as (t4 & cv & E4 & F4 & C4 & NC4). rewrite E4. cbn [bind].
  assert (G4 : gok t4) by (rewrite F4; now apply gok_cost).
  destruct (compute_root_cost_ok G4 C4) as (t6 & E6 & F6 & C6 & R6). exists t6. split; auto. split; [split; auto|].
  - rewrite F6. now apply gok_cost.
  - intros z p k0 k1 Ep Pm. rewrite F6 in Ep, Pm |- *. cbn [w_cost u_ncost u_n u_open u_sub u_par u_adj] in *.
    destruct (Nat.eq_dec z u) as [->|N]; [apply NC4; auto|]. rewrite F4 in Ep, Pm |- *. cbn [t1 w_graph w_cost u_ncost u_n u_open u_sub u_par u_adj] in *.
    rewrite get_set_neq by congruence. apply NC; auto. rewrite <- Pn; auto.
  - rewrite F6, F4. repeat split.
Qed.

(** ** preprocess_edge on the whole tree *)
Definition psub_ok (n : nat) (leaf : list nset) (A : nat -> list nat) sub : Prop :=
  forall x y s, get (x, y) sub = Some s -> asc s /\ (y < n -> nth_error leaf y = Some s) /\
    (forall c0 c1, Permutation (A y) [x; c0; c1] -> here sub y c0 /\ here sub y c1 /\ s = sunion (sv sub y c0) (sv sub y c1)).
Definition grows (sub sub' : list ((nat * nat) * nset)) : Prop := forall k v, get k sub = Some v -> get k sub' = Some v.
Lemma grows_here sub sub' x y : grows sub sub' -> here sub x y -> here sub' x y /\ sv sub' x y = sv sub x y.
Proof. intros Gr H. pose proof (Gr _ _ (here_get H)) as E. unfold here, sv at 1. rewrite E. split; [discriminate|auto]. Qed.
Section Pre.
  Variables (n : nat) (leaf : list nset) (adj : list (nat * list nat)).
  Hypothesis L : length leaf = n.
  Hypothesis La : Forall asc leaf.
  Let A := nbs adj.
  Lemma pre_ok t : forall fuel p sub, height t <= fuel -> hang n A p t -> NoDup (p :: ids t) -> psub_ok n leaf A sub ->
    exists sub' s, preprocess fuel n leaf adj sub p (uid t) = Ok (sub', s) /\ psub_ok n leaf A sub' /\ grows sub sub' /\
      get (p, uid t) sub' = Some s /\ (forall x y, here sub' x y -> here sub x y \/ In y (ids t)).
  Proof.
    induction t as [i|v l IHl r IHr]; intros fuel p sub F H ND K.
    - destruct H as [H E]. cbn [uid]. assert (X : preprocess fuel n leaf adj sub p i = match get (p, i) sub with Some s => Ok (sub, s) | None => match nth_error leaf i with Some s => Ok (set (p, i) s sub, s) | None => Err KeyError end end).
      { destruct fuel; cbn [preprocess]; unfold is_leaf; rewrite (proj2 (Nat.ltb_lt _ _) H); auto. }
      rewrite X. destruct (get (p, i) sub) as [s|] eqn:Es.
      + exists sub, s. split; auto. split; auto. split; [intros k w; auto|]. split; auto.
      + destruct (nth_error leaf i) as [s|] eqn:El; [|apply nth_error_None in El; lia].
        exists (set (p, i) s sub), s. split; auto.
        assert (Gr : grows sub (set (p, i) s sub)) by (intros k w Ek; rewrite get_set_neq; auto; congruence).
        split; [|split; [auto|split; [apply get_set_eq|]]].
        * intros a b s0 E0. rewrite get_set in E0. destruct (eqb_spec (a, b) (p, i)) as [E1|N1].
          -- injection E1 as -> ->. injection E0 as <-. split; [|split; auto].
             ++ rewrite Forall_forall in La. apply La. eapply nth_error_In; eauto.
             ++ intros c0 c1 Pm. rewrite E in Pm. apply Permutation_length in Pm. discriminate.
          -- destruct (K a b s0 E0) as (K1 & K2 & K3). split; auto. split; auto. intros c0 c1 Pm. destruct (K3 _ _ Pm) as (K4 & K5 & K6).
             destruct (grows_here Gr K4) as [H1 H2]. destruct (grows_here Gr K5) as [H3 H4]. rewrite H2, H4. auto.
        * intros a b Hh. unfold here in Hh. rewrite get_set in Hh. destruct (eqb_spec (a, b) (p, i)) as [E1|N1]; [|left; auto]. injection E1 as -> ->. right; simpl; auto.
    - pose proof H as (N & Pm & Hl & Hr). cbn [ids] in ND.
      inversion ND as [|? ? Np ND1]; subst. inversion ND1 as [|? ? Nv ND2]; subst. rewrite in_app_iff in Nv. apply NoDup_app_iff in ND2 as (Nl & Nr & D).
      simpl in Np. rewrite in_app_iff in Np. pose proof (uid_in l) as Tl. pose proof (uid_in r) as Tr.
      destruct fuel as [|fuel]; [cbn in F; lia|]. cbn [height] in F. cbn [uid].
      destruct (get (p, v) sub) as [s|] eqn:Es.
      { exists sub, s. cbn [preprocess]. rewrite Es. split; auto. split; auto. split; [intros k w; auto|]. split; auto. }
      cbn [preprocess]. rewrite Es. unfold is_leaf. rewrite (proj2 (Nat.ltb_ge _ _) N).
      assert (Step : forall c0 c1, (c0 = l /\ c1 = r) \/ (c0 = r /\ c1 = l) ->
        exists sub' s, (do d0 <- preprocess fuel (length leaf) leaf adj sub v (uid c0); do d1 <- preprocess fuel (length leaf) leaf adj (fst d0) v (uid c1); Ok (set (p, v) (sunion (snd d0) (snd d1)) (fst d1), sunion (snd d0) (snd d1))) = Ok (sub', s) /\
          psub_ok (length leaf) leaf A sub' /\ grows sub sub' /\ get (p, v) sub' = Some s /\ (forall x y, here sub' x y -> here sub x y \/ In y (ids (UN v l r)))).
      { intros c0 c1 Hc.
        assert (IH0 : forall p sub, hang (length leaf) A p c0 -> NoDup (p :: ids c0) -> psub_ok (length leaf) leaf A sub -> exists sub' s, preprocess fuel (length leaf) leaf adj sub p (uid c0) = Ok (sub', s) /\ psub_ok (length leaf) leaf A sub' /\ grows sub sub' /\ get (p, uid c0) sub' = Some s /\ (forall x y, here sub' x y -> here sub x y \/ In y (ids c0))).
        { intros p' sub' X1 X2 X3. destruct Hc as [[-> ->]|[-> ->]]; [apply IHl|apply IHr]; auto; lia. }
        assert (IH1 : forall p sub, hang (length leaf) A p c1 -> NoDup (p :: ids c1) -> psub_ok (length leaf) leaf A sub -> exists sub' s, preprocess fuel (length leaf) leaf adj sub p (uid c1) = Ok (sub', s) /\ psub_ok (length leaf) leaf A sub' /\ grows sub sub' /\ get (p, uid c1) sub' = Some s /\ (forall x y, here sub' x y -> here sub x y \/ In y (ids c1))).
        { intros p' sub' X1 X2 X3. destruct Hc as [[-> ->]|[-> ->]]; [apply IHr|apply IHl]; auto; lia. }
        assert (Pmc : Permutation (A v) [p; uid c0; uid c1]). { destruct Hc as [[-> ->]|[-> ->]]; auto. rewrite Pm. apply perm_skip, perm_swap. }
        assert (Ic : forall z, In z (ids c0) \/ In z (ids c1) -> z <> v /\ z <> p /\ In z (ids (UN v l r))).
        { intros z Hz. assert (Hz' : In z (ids l) \/ In z (ids r)) by (destruct Hc as [[-> ->]|[-> ->]]; tauto). simpl. rewrite in_app_iff. split; [intros ->; tauto|]. split; [intros ->; tauto|]. auto. }
        destruct (IH0 v sub) as (sub1 & s0 & E0 & K0 & Gr0 & G0 & H0); auto.
        { destruct Hc as [[-> ->]|[-> ->]]; auto. } { destruct Hc as [[-> ->]|[-> ->]]; constructor; tauto. }
        destruct (IH1 v sub1) as (sub2 & s1 & E1 & K1 & Gr1 & G1 & H1); auto.
        { destruct Hc as [[-> ->]|[-> ->]]; auto. } { destruct Hc as [[-> ->]|[-> ->]]; constructor; tauto. }
        rewrite E0. cbn [bind fst snd]. rewrite E1. cbn [bind fst snd].
        assert (Nh : get (p, v) sub2 = None).
        { destruct (get (p, v) sub2) eqn:Q; auto. exfalso. assert (Hh : here sub2 p v) by (unfold here; congruence).
          apply H1 in Hh as [Hh|Hh]; [|destruct (Ic v) as (Zv & _); auto]. apply H0 in Hh as [Hh|Hh]; [apply Hh; auto|destruct (Ic v) as (Zv & _); auto]. }
        set (s := sunion s0 s1). set (sub' := set (p, v) s sub2).
        assert (Gr2 : grows sub2 sub') by (intros k w Ek; unfold sub'; rewrite get_set_neq; auto; congruence).
        exists sub', s. split; auto. split; [|split; [|split]].
        - intros a b s2 E2. unfold sub' in E2. rewrite get_set in E2. destruct (eqb_spec (a, b) (p, v)) as [Q|Q].
          + injection Q as -> ->. injection E2 as <-. split; [apply sunion_asc|]. split; [lia|]. intros k0 k1 Pk.
            rewrite Pmc in Pk. apply Permutation_cons_inv in Pk.
            assert (h0 : here sub2 v (uid c0)) by (unfold here; rewrite (Gr1 _ _ G0); discriminate).
            assert (h1 : here sub2 v (uid c1)) by (unfold here; rewrite G1; discriminate).
            assert (q0 : sv sub2 v (uid c0) = s0) by (unfold sv; rewrite (Gr1 _ _ G0); auto).
            assert (q1 : sv sub2 v (uid c1) = s1) by (unfold sv; rewrite G1; auto).
            destruct (grows_here Gr2 h0) as [h2 h3]. destruct (grows_here Gr2 h1) as [h4 h5]. rewrite q0 in h3. rewrite q1 in h5.
            apply Permutation_sym, perm_two in Pk as [Q|Q]; injection Q as -> ->; rewrite h3, h5; auto. split; auto. split; auto. apply sunion_comm.
          + destruct (K1 a b s2 E2) as (X1 & X2 & X3). split; auto. split; auto. intros k0 k1 Pk. destruct (X3 _ _ Pk) as (X4 & X5 & X6).
            destruct (grows_here Gr2 X4) as [Y1 Y2]. destruct (grows_here Gr2 X5) as [Y3 Y4]. rewrite Y2, Y4. auto.
        - intros k w Ek. auto.
        - apply get_set_eq.
        - intros a b Hh. unfold here, sub' in Hh. rewrite get_set in Hh. destruct (eqb_spec (a, b) (p, v)) as [Q|Q]; [injection Q as -> ->; right; simpl; auto|].
          apply H1 in Hh as [Hh|Hh]; [|right; apply Ic; auto]. apply H0 in Hh as [Hh|Hh]; [auto|right; apply Ic; auto]. }
      destruct (@others_two adj v p (uid l) (uid r)) as [-> | ->]; auto; try (intros ->; tauto).
  Qed.
End Pre.

(** ** building the graph *)
Section Build.
  Variable n : nat.
  Definition top (A : nat -> list nat) (t : ut) : Prop :=
    match t with UL i => i < n /\ A i = [] | UN v l r => n <= v /\ Permutation (A v) [uid l; uid r] /\ hang n A v l /\ hang n A v r end.
  Definition tpar (P : nat -> option nat) (t : ut) : Prop :=
    match t with UL _ => True | UN v l r => pars P v l /\ pars P v r end.
  Record forest (k : nat) (adj : list (nat * list nat)) (par : list (nat * nat)) (F : list ut) : Prop := {
    f_top : Forall (top (nbs adj)) F;
    f_nodup : NoDup (flat_map ids F);
    f_ids : forall x, In x (flat_map ids F) <-> x < k;
    f_lvs : Permutation (flat_map lvs F) (seq 0 n);
    f_par : Forall (tpar (fun x => get x par)) F;
    f_len : length F + k = 2 * n;
    f_adj : forall x, k <= x -> nbs adj x = [];
    f_keys : NoDup (keys adj)
  }.
  Lemma top_ext A A' t : (forall x, In x (ids t) -> A' x = A x) -> top A t -> top A' t.
  Proof.
    destruct t as [i|v l r]; simpl; intros E H.
    - rewrite E; auto.
    - destruct H as (H1 & H2 & H3 & H4). repeat split; auto; [rewrite E; auto| |];
        (apply hang_ext with (A := A); [|auto]; intros x Hx; apply E; right; apply in_app_iff; auto).
  Qed.
  Lemma top_hang A A' p t : (forall x, In x (ids t) -> x <> uid t -> A' x = A x) -> NoDup (ids t) ->
    Permutation (A' (uid t)) (p :: A (uid t)) -> top A t -> hang n A' p t.
  Proof.
    destruct t as [i|v l r]; simpl; intros E ND P H.
    - destruct H as [H1 H2]. split; auto. rewrite H2 in P. apply Permutation_sym, Permutation_length_1_inv in P. auto.
    - destruct H as (H1 & H2 & H3 & H4). inversion ND as [|? ? Nv ND']; subst. rewrite in_app_iff in Nv. split; auto. split; [now rewrite P, H2|].
      split; (apply hang_ext with (A := A); [|auto]; intros x Hx; apply E; [right; apply in_app_iff; auto|intros ->; tauto]).
  Qed.
  Lemma top_kids A t : top A t -> Permutation (A (uid t)) (kids t).
  Proof. destruct t; simpl; intros H; [destruct H as [_ ->]; auto|apply H]. Qed.
  Lemma kids_ids t x : In x (kids t) -> In x (ids t).
  Proof. destruct t as [|v l r]; simpl; [tauto|]. pose proof (uid_in l). pose proof (uid_in r). intros [<-|[<-|[]]]; right; apply in_app_iff; auto. Qed.
  Lemma pars_ext P P' t : forall p, (forall x, In x (ids t) -> P' x = P x) -> pars P p t -> pars P' p t.
  Proof.
    induction t as [i|v l IHl r IHr]; simpl; intros p E H; [rewrite E; auto|]. destruct H as (H1 & H2 & H3). rewrite E by auto. split; auto.
    split; [apply IHl|apply IHr]; auto; intros x Hx; apply E; right; apply in_app_iff; auto.
  Qed.
  Lemma tpar_ext P P' t : (forall x, In x (ids t) -> x <> uid t -> P' x = P x) -> NoDup (ids t) -> tpar P t -> tpar P' t.
  Proof.
    destruct t as [i|v l r]; simpl; auto. intros E ND [H1 H2]. inversion ND as [|? ? Nv ND']; subst. rewrite in_app_iff in Nv.
    split; (eapply pars_ext; [|eauto]; intros x Hx; apply E; [right; apply in_app_iff; auto|intros ->; tauto]).
  Qed.
  Lemma tpar_pars P t p : tpar P t -> P (uid t) = Some p -> pars P p t.
  Proof. destruct t; simpl; auto. Qed.

  Lemma split2 {T} (l : list T) i j a b : i < j -> nth_error l i = Some a -> nth_error l j = Some b ->
    exists l1 l2 l3, l = l1 ++ a :: l2 ++ b :: l3 /\ keep_except [i; j] l = l1 ++ l2 ++ l3 /\ length l1 = i /\ j = length l1 + S (length l2).
  Proof.
    intros Hij Hi Hj. pose proof (nth_error_split _ _ Hi) as (o1 & o2 & -> & L1).
    assert (Hj' : nth_error o2 (j - S (length o1)) = Some b).
    { rewrite nth_error_app2 in Hj by lia. destruct (j - length o1) as [|k] eqn:E; [lia|]. simpl in Hj. replace (j - S (length o1)) with k by lia. auto. }
    pose proof (nth_error_split _ _ Hj') as (o3 & o4 & -> & L2). exists o1, o3, o4. split; auto. split; [|split; auto; lia].
    unfold keep_except. rewrite keep_app. rewrite keep_none; [|intros k Hk [E|[E|[]]]; lia]. simpl.
    rewrite <- L1. simpl. change (@eqb nat _) with Nat.eqb. rewrite Nat.eqb_refl. simpl. rewrite keep_app. rewrite keep_none; [|intros k Hk [E|[E|[]]]; lia]. simpl.
    change (@eqb nat _) with Nat.eqb. replace (S (length o1 + length o3) =? length o1) with false by (symmetry; apply Nat.eqb_neq; lia).
    replace (S (length o1 + length o3) =? j) with true by (symmetry; apply Nat.eqb_eq; lia). simpl.
    rewrite keep_none; [|intros k Hk [E|[E|[]]]; lia]. auto.
  Qed.
  Lemma del_nth_app {T} (l1 : list T) a l2 : del_nth (length l1) (l1 ++ a :: l2) = l1 ++ l2.
  Proof. unfold del_nth. induction l1; simpl; auto. simpl in IHl1. now rewrite IHl1. Qed.
  Lemma pop_app {T} (l1 : list T) a l2 : pop_nth (length l1) (l1 ++ a :: l2) = Ok (a, l1 ++ l2).
  Proof. unfold pop_nth. rewrite nth_error_app2, Nat.sub_diag by lia. cbn [nth_error]. now rewrite del_nth_app. Qed.
  Lemma Forall2_keep {S T} (R : S -> T -> Prop) l : forall m k is, Forall2 R l m -> Forall2 R (keep_from k is l) (keep_from k is m).
  Proof. induction l; intros m k is H; inversion H; subst; simpl; [constructor|]. destruct (mem k is); auto. Qed.

  Lemma NoDup_flat {S T} (f : S -> list T) l x : NoDup (flat_map f l) -> In x l -> NoDup (f x).
  Proof. induction l as [|a l IH]; simpl; intros N I; [tauto|]. apply NoDup_app_iff in N as (N1 & N2 & _). destruct I as [->|I]; auto. Qed.
  Lemma forest_join k adj par F1 a F2 b F3 : forest k adj par (F1 ++ a :: F2 ++ b :: F3) -> n <= k ->
    forest (S k) (add_edge (uid b) k (add_edge (uid a) k adj)) (set (uid b) k (set (uid a) k par)) ((F1 ++ F2 ++ F3) ++ [UN k a b]).
  Proof.
    intros [Ht Hn Hi Hl Hp Hlen Ha Hk] Lk. set (A := nbs adj). set (u := uid a). set (v := uid b).
    set (F := F1 ++ a :: F2 ++ b :: F3) in *.
    assert (PF : Permutation F (a :: b :: F1 ++ F2 ++ F3)).
    { unfold F. rewrite <- Permutation_middle. apply perm_skip. rewrite <- !Permutation_middle. auto. }
    assert (PI : Permutation (flat_map ids F) (ids a ++ ids b ++ flat_map ids (F1 ++ F2 ++ F3))) by (rewrite (Permutation_flat_map ids PF); auto).
    assert (ND : NoDup (ids a ++ ids b ++ flat_map ids (F1 ++ F2 ++ F3))) by (rewrite <- PI; auto).
    apply NoDup_app_iff in ND as (Na & ND & D1). apply NoDup_app_iff in ND as (Nb & NR & D2).
    pose proof (uid_in a) as Ta. pose proof (uid_in b) as Tb.
    assert (Lt : forall x, In x (ids a) \/ In x (ids b) \/ In x (flat_map ids (F1 ++ F2 ++ F3)) -> x < k).
    { intros x Hx. apply Hi. rewrite PI, !in_app_iff. tauto. }
    assert (Nuv : u <> v). { intros E. apply (D1 u); auto. apply in_app_iff. left. rewrite E. exact Tb. }
    assert (Lu : u < k) by (apply Lt; auto). assert (Lv : v < k) by (apply Lt; auto).
    assert (Fa : top A a). { rewrite Forall_forall in Ht. apply Ht. unfold F. apply in_app_iff. right; left; auto. }
    assert (Fb : top A b). { rewrite Forall_forall in Ht. apply Ht. unfold F. apply in_app_iff. right; right; apply in_app_iff. right; left; auto. }
    assert (Ku : mem k (A u) = false). { apply mem_false. intros I. apply (Permutation_in _ (top_kids _ _ Fa)) in I. apply kids_ids in I. apply (Nat.lt_irrefl k). apply Lt. auto. }
    assert (Kv : mem k (A v) = false). { apply mem_false. intros I. apply (Permutation_in _ (top_kids _ _ Fb)) in I. apply kids_ids in I. apply (Nat.lt_irrefl k). apply Lt. auto. }
    assert (Ak : A k = []) by (apply Ha; auto).
    set (A' := nbs (add_edge v k (add_edge u k adj))).
    assert (B : forall z, A' z = if z =? u then A u ++ [k] else if z =? v then A v ++ [k] else if z =? k then [u; v] else A z).
    { intros z. unfold A', add_edge, add_nb. repeat rewrite !nbs_set.
      assert (E1 : (u =? v) = false) by (apply Nat.eqb_neq; auto). assert (E2 : (v =? u) = false) by (apply Nat.eqb_neq; auto).
      assert (E3 : (u =? k) = false) by (apply Nat.eqb_neq; lia). assert (E4 : (k =? u) = false) by (apply Nat.eqb_neq; lia).
      assert (E5 : (v =? k) = false) by (apply Nat.eqb_neq; lia). assert (E6 : (k =? v) = false) by (apply Nat.eqb_neq; lia).
      repeat (rewrite ?Nat.eqb_refl, ?E1, ?E2, ?E3, ?E4, ?E5, ?E6). fold A. rewrite Ku, Kv, Ak. change (mem u []) with false. cbv iota. assert (E7 : mem v [u] = false) by (apply mem_false; simpl; intuition congruence). cbn [app]. rewrite E7.
      destruct (Nat.eqb_spec z u), (Nat.eqb_spec z v), (Nat.eqb_spec z k); try (exfalso; lia); auto. }
    assert (Bz : forall z, z <> u -> z <> v -> z <> k -> A' z = A z).
    { intros z Z1 Z2 Z3. rewrite B. rewrite (proj2 (Nat.eqb_neq z u) Z1), (proj2 (Nat.eqb_neq z v) Z2), (proj2 (Nat.eqb_neq z k) Z3). auto. }
    assert (Bu : A' u = A u ++ [k]) by (rewrite B, Nat.eqb_refl; auto).
    assert (Bv : A' v = A v ++ [k]) by (rewrite B, Nat.eqb_refl, (proj2 (Nat.eqb_neq v u)) by congruence; auto).
    assert (Bk : A' k = [u; v]) by (rewrite B, (proj2 (Nat.eqb_neq k u)), (proj2 (Nat.eqb_neq k v)), Nat.eqb_refl by lia; auto).
    assert (Ha' : hang n A' k a).
    { apply top_hang with (A := A); auto.
      - intros x Hx Nx. apply Bz; auto; [|intros ->; apply (Nat.lt_irrefl k); apply Lt; auto]. intros ->. apply (D1 v); auto. apply in_app_iff. auto.
      - fold u. rewrite Bu. rewrite Permutation_app_comm. auto. }
    assert (Hb' : hang n A' k b).
    { apply top_hang with (A := A); auto.
      - intros x Hx Nx. apply Bz; auto; [|intros ->; apply (Nat.lt_irrefl k); apply Lt; auto]. intros ->. apply (D1 u); auto. apply in_app_iff. auto.
      - fold v. rewrite Bv. rewrite Permutation_app_comm. auto. }
    assert (Pa : forall z, z <> u -> z <> v -> get z (set v k (set u k par)) = get z par) by (intros z Z1 Z2; rewrite !get_set_neq by congruence; auto).
    assert (Rin : forall t, In t (F1 ++ F2 ++ F3) -> In t F). { intros t I. rewrite PF. right; right; auto. }
    assert (Rout : forall t x, In t (F1 ++ F2 ++ F3) -> In x (ids t) -> x <> u /\ x <> v /\ x <> k).
    { intros t x It Ix. assert (J : In x (flat_map ids (F1 ++ F2 ++ F3))) by (apply in_flat_map; eauto).
      repeat split; intros ->; [apply (D1 u); auto; apply in_app_iff; auto|apply (D2 v); auto|apply (Nat.lt_irrefl k); apply Lt; auto]. }
    assert (PI2 : Permutation (flat_map ids ((F1 ++ F2 ++ F3) ++ [UN k a b])) (k :: flat_map ids F)).
    { rewrite PI. rewrite flat_map_app. simpl. rewrite app_nil_r. rewrite Permutation_app_comm. simpl. now rewrite <- app_assoc. }
    split.
    - apply Forall_app. split.
      + rewrite Forall_forall in *. intros t It. apply top_ext with (A := A); [|apply Ht; auto]. intros x Hx. destruct (Rout t x It Hx) as (X1 & X2 & X3). auto.
      + constructor; [|constructor]. simpl. split; auto. split; [fold A'; rewrite Bk; auto|]. split; auto.
    - rewrite PI2. constructor; auto. rewrite Hi. lia.
    - intros x. rewrite PI2. simpl. rewrite Hi. lia.
    - rewrite flat_map_app. simpl. rewrite app_nil_r. rewrite <- Hl. rewrite (Permutation_flat_map lvs PF). simpl. rewrite Permutation_app_comm. now rewrite <- app_assoc.
    - apply Forall_app. split.
      + rewrite Forall_forall in *. intros t It. apply tpar_ext with (P := fun x => get x par); [|eapply NoDup_flat; eauto|apply Hp; auto]. intros x Hx _. destruct (Rout t x It Hx) as (X1 & X2 & X3). auto.
      + constructor; [|constructor]. cbn [tpar]. rewrite Forall_forall in Hp. split; apply tpar_pars.
        * apply tpar_ext with (P := fun x => get x par); auto; [|apply Hp; rewrite PF; simpl; auto]. intros x Hx Nx. apply Pa; auto. intros ->. apply (D1 v); auto. apply in_app_iff; auto.
        * fold u. rewrite get_set_neq by congruence. apply get_set_eq.
        * apply tpar_ext with (P := fun x => get x par); auto; [|apply Hp; rewrite PF; simpl; auto]. intros x Hx Nx. apply Pa; auto. intros ->. apply (D1 u); auto. apply in_app_iff; auto.
        * fold v. apply get_set_eq.
    - pose proof (Permutation_length PF). rewrite app_length. simpl in *. lia.
    - intros x Hx. fold A'. rewrite Bz by lia. apply Ha. lia.
    - unfold add_edge, add_nb. repeat apply keys_set_NoDup. auto.
  Qed.
End Build.
