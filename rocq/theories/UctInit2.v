(** * the constructor of the tree establishes the invariant *)
From Coq Require Import List Arith ZArith Lia Bool Permutation Sorted.
From Verif Require Import Base PathSpec UctSpec ModelOrder ModelPath ModelOpt PathProofs OptProofs DPProofs DPProofs2 ModelUct UctProofs UctPath UctSwitch UctSwitch2 UctSwitch3 UctInit.
Import ListNotations.
Set Implicit Arguments.
Open Scope nat_scope.

Lemma valid_vto p : forall n, valid_lin n p -> pairwise p -> vto n p 1.
Proof.
  induction p as [|s r IH]; simpl; intros n V W; auto. inversion W as [|? ? L W']; subst. destruct V as (_ & V1 & V2 & V3). rewrite L in V3. auto 10.
Qed.
Lemma vto_split p : forall n q m, vto n (p ++ q) m -> exists k, vto n p k /\ vto k q m.
Proof.
  induction p as [|s r IH]; simpl; intros n q m H; eauto. destruct H as (H1 & H2 & H3 & H4). destruct (IH _ _ _ H4) as (k & K1 & K2). exists k. auto 10.
Qed.

Lemma Forall2_len {S T} (R : S -> T -> Prop) l m : Forall2 R l m -> length l = length m.
Proof. induction 1; simpl; congruence. Qed.
Lemma map_keep_from {S T} (f : S -> T) is l : forall k, map f (keep_from k is l) = keep_from k is (map f l).
Proof. induction l as [|x l IH]; intros k; simpl; auto. destruct (mem k is); simpl; rewrite IH; auto. Qed.
Lemma Forall2_two {S T} (R : S -> T -> Prop) a b m : Forall2 R [a; b] m -> exists x y, m = [x; y] /\ R a x /\ R b y.
Proof. intros H. inversion H as [|? ? ? ? H1 H2]; subst. inversion H2 as [|? ? ? ? H3 H4]; subst. inversion H4; subst. eauto. Qed.
Section Run.
  Variable n : nat.
  Lemma build_ok q : forall k adj par F T m, forest n k adj par F -> n <= k -> vto (length F) q m -> Forall2 swapped (map shape F) T ->
    exists k' adj' par' F' T', build adj par (map uid F) k q = Ok (adj', par', map uid F') /\ forest n k' adj' par' F' /\
      lin_run PNode T q = Some T' /\ Forall2 swapped (map shape F') T' /\ length F' = m /\ n <= k'.
  Proof.
    induction q as [|s q IH]; intros k adj par F T m HF Lk V H2.
    - simpl in V. exists k, adj, par, F, T. simpl. auto 10.
    - destruct V as (Ls & Ns & Rs & V). destruct s as [|i0 [|j0 [|]]]; try discriminate. clear Ls.
      inversion Ns as [|? ? Nij _]; subst. assert (Nij' : i0 <> j0) by (intros ->; apply Nij; simpl; auto). clear Nij Ns.
      inversion Rs as [|? ? Hi0 Rs']; subst. inversion Rs' as [|? ? Hj0 _]; subst. clear Rs Rs'.
      set (i := if j0 <? i0 then j0 else i0). set (j := if j0 <? i0 then i0 else j0).
      assert (Hij : i < j /\ ((i = i0 /\ j = j0) \/ (i = j0 /\ j = i0))). { unfold i, j. destruct (Nat.ltb_spec j0 i0); split; auto; lia. }
      destruct Hij as [Hij Hor].
      destruct (nth_error F i) as [a|] eqn:Ea; [|apply nth_error_None in Ea; lia].
      destruct (nth_error F j) as [b|] eqn:Eb; [|apply nth_error_None in Eb; lia].
      destruct (@split2 _ F i j a b Hij Ea Eb) as (F1 & F2 & F3 & EF & KF & L1 & L2).
      pose proof (f_len HF) as Len.
      assert (LT : length T = length F) by (apply Forall2_len in H2 as H3; rewrite map_length in H3; auto).
      assert (Sw : forall z x, nth_error F z = Some x -> exists y, nth_error T z = Some y /\ swapped (shape x) y).
      { intros z x Hz. assert (Hm : nth_error (map shape F) z = Some (shape x)) by (rewrite nth_error_map, Hz; auto).
        clear - H2 Hm. revert z Hm. induction H2 as [|p q l m S _ IH]; intros [|z] Hm; try discriminate; simpl in *; eauto. inversion Hm; subst. eauto. }
      destruct (Sw _ _ Ea) as (Ta & Ta1 & Ta2). destruct (Sw _ _ Eb) as (Tb & Tb1 & Tb2). clear Sw.
      assert (exists TN, picks [i0; j0] T = Some TN /\ swapped (shape (UN k a b)) (PNode TN)) as (TN & PT & ST).
      { cbn [picks]. destruct Hor as [[E3 E4]|[E3 E4]]; rewrite <- E3, <- E4; rewrite Ta1, Tb1; eexists; (split; [reflexivity|]); cbn [shape]; [apply sw_keep|apply sw_swap]; auto. }
      assert (KE : forall X (l : list X), keep_except [i0; j0] l = keep_except [i; j] l). { intros X l. apply keep_perm. intros z. simpl. destruct Hor as [[E3 E4]|[E3 E4]]; rewrite E3, E4; tauto. }
      assert (HF' : forest n (S k) (add_edge (uid b) k (add_edge (uid a) k adj)) (set (uid b) k (set (uid a) k par)) ((F1 ++ F2 ++ F3) ++ [UN k a b])).
      { apply forest_join; auto. rewrite <- EF. auto. }
      assert (LF : length ((F1 ++ F2 ++ F3) ++ [UN k a b]) = length F - 2 + 1). { rewrite EF. repeat (rewrite app_length; simpl). lia. }
      assert (H2' : Forall2 swapped (map shape ((F1 ++ F2 ++ F3) ++ [UN k a b])) (keep_except [i0; j0] T ++ [PNode TN])).
      { rewrite map_app. apply Forall2_app; [|repeat constructor; auto]. rewrite <- KF, KE. unfold keep_except. 
        rewrite map_keep_from. apply Forall2_keep; auto. }
      rewrite <- LF in V.
      destruct (IH _ _ _ _ _ _ HF' (Nat.le_trans _ _ _ Lk (Nat.le_succ_diag_r k)) V H2') as (k' & adj' & par' & F' & T' & B1 & B2 & B3 & B4 & B5 & B6).
      exists k', adj', par', F', T'. split; [|split; [auto|split; [|auto]]].
      + cbn [build]. fold i j. rewrite EF. rewrite !map_app. cbn [map]. rewrite map_app. cbn [map].
        assert (P1 : pop_nth j (map uid F1 ++ uid a :: map uid F2 ++ uid b :: map uid F3) = Ok (uid b, map uid F1 ++ uid a :: map uid F2 ++ map uid F3)).
        { pose proof (pop_app (map uid F1 ++ uid a :: map uid F2) (uid b) (map uid F3)) as P. rewrite app_length in P. simpl in P. rewrite !map_length in P. rewrite <- L2 in P.
          repeat rewrite <- app_assoc in P. simpl in P. exact P. }
        rewrite P1. cbn [bind fst snd].
        assert (P2 : pop_nth i (map uid F1 ++ uid a :: map uid F2 ++ map uid F3) = Ok (uid a, map uid F1 ++ map uid F2 ++ map uid F3)).
        { pose proof (pop_app (map uid F1) (uid a) (map uid F2 ++ map uid F3)) as P. rewrite map_length, L1 in P. exact P. }
        rewrite P2. cbn [bind fst snd]. rewrite <- B1. f_equal. rewrite !map_app. cbn [map uid]. auto.
      + cbn [lin_run]. rewrite PT. exact B3.
  Qed.

  Lemma forest_start : forest n n (map (fun i => (i, [])) (seq 0 n)) [] (map UL (seq 0 n)).
  Proof.
    assert (B : forall x, nbs (map (fun i => (i, [])) (seq 0 n)) x = []).
    { intros x. unfold nbs. generalize (seq 0 n). induction l as [|y l IH]; simpl; auto. destruct (eqb x y); auto. }
    assert (I : flat_map ids (map UL (seq 0 n)) = seq 0 n). { generalize (seq 0 n). induction l; simpl; congruence. }
    assert (I2 : flat_map lvs (map UL (seq 0 n)) = seq 0 n). { generalize (seq 0 n). induction l; simpl; congruence. }
    split; rewrite ?I, ?I2; auto.
    - apply Forall_forall. intros t Ht. apply in_map_iff in Ht as (i & <- & Hi). apply in_seq in Hi. split; [lia|apply B].
    - apply seq_NoDup.
    - intros x. rewrite in_seq. lia.
    - apply Forall_forall. intros t Ht. apply in_map_iff in Ht as (i & <- & Hi). simpl. auto.
    - rewrite map_length, seq_length. lia.
    - unfold keys. rewrite map_map. simpl. rewrite map_id. apply seq_NoDup.
  Qed.
  Lemma start_swapped l : Forall2 swapped (map shape (map UL l)) (map PLeaf l).
  Proof. induction l; simpl; constructor; auto. apply sw_leaf. Qed.

  (** the edge between the two last trees *)
  Lemma forest_end k adj par a b : forest n k adj par [a; b] -> n <= k ->
    let adj' := add_edge (uid a) (uid b) adj in
    let par' := set (uid b) (uid a) (set (uid a) (uid b) par) in
    view n (nbs adj') a b /\ pars (fun x => get x par') (uid b) a /\ pars (fun x => get x par') (uid a) b /\ k = 2 * n - 2 /\
    NoDup (keys adj') /\ (forall x, nbs adj' x <> [] <-> x < k).
  Proof.
    intros [Ht Hn Hi Hl Hp Hlen Ha Hk] Lk adj' par'. simpl in *. rewrite app_nil_r in *.
    inversion Ht as [|? ? Fa Ht']; subst. inversion Ht' as [|? ? Fb _]; subst. inversion Hp as [|? ? Pa Hp']; subst. inversion Hp' as [|? ? Pb _]; subst.
    pose proof Hn as ND. apply NoDup_app_iff in ND as (Na & Nb & D). pose proof (uid_in a) as Ta. pose proof (uid_in b) as Tb.
    set (u := uid a) in *. set (v := uid b) in *. set (A := nbs adj) in *.
    assert (Nuv : u <> v). { intros E. apply (D u); auto. rewrite E. auto. }
    assert (Mu : mem v (A u) = false). { apply mem_false. intros I. apply (Permutation_in _ (top_kids _ _ _ Fa)) in I. apply kids_ids in I. apply (D v); auto. }
    assert (Mv : mem u (A v) = false). { apply mem_false. intros I. apply (Permutation_in _ (top_kids _ _ _ Fb)) in I. apply kids_ids in I. apply (D u); auto. }
    set (A' := nbs adj').
    assert (E1 : (u =? v) = false) by (apply Nat.eqb_neq; auto). assert (E2 : (v =? u) = false) by (apply Nat.eqb_neq; auto).
    assert (B : forall z, A' z = if z =? u then A u ++ [v] else if z =? v then A v ++ [u] else A z).
    { intros z. unfold A', adj', add_edge, add_nb. rewrite !nbs_set. rewrite E2. fold A. rewrite Mu, Mv.
      destruct (Nat.eqb_spec z u), (Nat.eqb_spec z v); auto; congruence. }
    assert (Bu : A' u = A u ++ [v]) by (rewrite B, Nat.eqb_refl; auto).
    assert (Bv : A' v = A v ++ [u]) by (rewrite B, Nat.eqb_refl, E2; auto).
    assert (Bz : forall z, z <> u -> z <> v -> A' z = A z).
    { intros z Z1 Z2. rewrite B, (proj2 (Nat.eqb_neq z u) Z1), (proj2 (Nat.eqb_neq z v) Z2). auto. }
    assert (Ha' : hang n A' v a).
    { apply top_hang with (A := A); auto; [|fold u; rewrite Bu, Permutation_app_comm; auto]. intros x Hx Nx. apply Bz; auto. intros ->. apply (D v); auto. }
    assert (Hb' : hang n A' u b).
    { apply top_hang with (A := A); auto; [|fold v; rewrite Bv, Permutation_app_comm; auto]. intros x Hx Nx. apply Bz; auto. intros ->. apply (D u); auto. }
    assert (Cov : forall x, A' x <> [] -> In x (ids a ++ ids b)).
    { intros x Hx. rewrite Hi. destruct (le_lt_dec k x) as [H|]; auto. exfalso. apply Hx. rewrite Bz; [apply Ha; auto| |]; intros ->; [assert (u < k)|assert (v < k)]; try lia; apply Hi, in_app_iff; auto. }
    assert (V : view n A' a b) by (repeat split; auto).
    split; auto. split; [|split; [|split; [|split]]].
    - apply tpar_pars; [|fold u; unfold par'; rewrite get_set_neq by congruence; apply get_set_eq].
      eapply tpar_ext; [|exact Na|exact Pa]. intros x Hx Nx. unfold par'. rewrite !get_set_neq; auto. intros <-. apply (D v); auto.
    - apply tpar_pars; [|fold v; unfold par'; apply get_set_eq].
      eapply tpar_ext; [|exact Nb|exact Pb]. intros x Hx Nx. unfold par'. rewrite !get_set_neq; auto. intros <-. apply (D u); auto.
    - lia.
    - unfold adj', add_edge, add_nb. repeat apply keys_set_NoDup. auto.
    - intros x. split; [intros Hx; apply Hi, Cov; auto|]. intros Hx. apply Hi in Hx. fold A'.
      assert (G : forall t p, hang n A' p t -> In x (ids t) -> A' x <> []).
      { clear. induction t as [i|w l IHl r IHr]; simpl; intros p H I.
        - destruct I as [<-|[]], H as [_ ->]; discriminate.
        - destruct H as (_ & P & Hl & Hr). destruct I as [<-|I].
          + intros E. rewrite E in P. apply Permutation_nil in P. discriminate.
          + apply in_app_iff in I as [I|I]; eauto. }
      apply in_app_iff in Hx as [Hx|Hx]; eauto.
  Qed.

  Variables (leaf : list nset) (adj : list (nat * list nat)) (a b : ut).
  Hypothesis L : length leaf = n.
  Hypothesis La : Forall asc leaf.
  Hypothesis V : view n (nbs adj) a b.
  Hypothesis NK : NoDup (keys adj).
  Lemma edge_list_In x y : In (x, y) (edge_list adj) <-> In y (nbs adj x) /\ x < y.
  Proof.
    unfold edge_list. rewrite in_flat_map. split.
    - intros ([w l] & I & J). simpl in J. apply in_map_iff in J as (z & E & J). inversion E; subst. apply filter_In in J as [J1 J2]. apply Nat.ltb_lt in J2.
      split; auto. unfold nbs. apply In_get in I; auto. rewrite I. auto.
    - intros [I Lt]. unfold nbs in I. destruct (get x adj) as [l|] eqn:E; [|destruct I]. exists (x, l). split; [apply get_In; auto|]. simpl.
      apply in_map_iff. exists y. split; auto. apply filter_In. split; auto. apply Nat.ltb_lt; auto.
  Qed.
  Lemma pre_fold es : forall sub, (forall x y, In (x, y) es -> In y (nbs adj x)) -> psub_ok n leaf (nbs adj) sub ->
    exists sub', foldM (fun sub e =>
                    do d <- preprocess (2 * n) n leaf adj sub (fst e) (snd e);
                    do d <- preprocess (2 * n) n leaf adj (fst d) (snd e) (fst e);
                    Ok (fst d)) sub es = Ok sub' /\ psub_ok n leaf (nbs adj) sub' /\ grows sub sub' /\
                 forall x y, In (x, y) es -> here sub' x y /\ here sub' y x.
  Proof.
    induction es as [|[x y] es IH]; intros sub HE K.
    - exists sub. simpl. split; auto. split; auto. split; [intros k w; auto|]. tauto.
    - destruct (@reroot n (nbs adj) a b x y V (HE x y (or_introl eq_refl))) as (a' & b' & V' & <- & <- & _).
      destruct V' as (Ha & Hb & ND & Cov & PL). apply NoDup_app_iff in ND as (Na & Nb & D).
      assert (NDa : NoDup (uid b' :: ids a')). { constructor; auto. intros I. apply (D _ I). apply uid_in. }
      assert (NDb : NoDup (uid a' :: ids b')). { constructor; auto. apply D. apply uid_in. }
      pose proof (height_lvs a') as La'. pose proof (height_lvs b') as Lb'. pose proof (Permutation_length PL) as LP. rewrite app_length, seq_length in LP.
      destruct (@pre_ok n leaf adj L La b' (2 * n) (uid a') sub) as (s1 & r1 & E1 & K1 & G1 & I1 & _); auto; [lia|].
      destruct (@pre_ok n leaf adj L La a' (2 * n) (uid b') s1) as (s2 & r2 & E2 & K2 & G2 & I2 & _); auto; [lia|].
      destruct (IH s2) as (s3 & E3 & K3 & G3 & I3); auto. { intros z w Hz. apply HE. right; auto. }
      exists s3. cbn [foldM fst snd]. rewrite E1. cbn [bind fst]. rewrite E2. cbn [bind fst]. split; auto. split; auto.
      split; [intros k w Hk; apply G3, G2, G1; auto|]. intros z w [E|Hz]; auto. inversion E; subst. unfold here. rewrite (G3 _ _ I2), (G3 _ _ (G2 _ _ I1)). split; discriminate.
  Qed.
  Lemma sub_all sub : psub_ok n leaf (nbs adj) sub -> (forall x y, In (x, y) (edge_list adj) -> here sub x y /\ here sub y x) -> sub_ok n leaf (nbs adj) sub.
  Proof.
    intros K H x y Hy. destruct (@view_edge _ _ _ _ _ _ V Hy) as [Hx Ne].
    assert (Hh : here sub x y).
    { destruct (lt_dec x y) as [Lt|Lt]; [apply (H x y); apply edge_list_In; auto|apply (H y x); apply edge_list_In; split; auto; lia]. }
    split; auto. destruct (K x y _ (here_get Hh)) as (K1 & K2 & K3). split; auto. split; auto. intros c0 c1 P. apply K3; auto.
  Qed.
End Run.

Lemma nodes_ok vs : forall t, gok t -> csum t -> rc_ok t -> (forall v, In v vs -> inner t v) ->
  exists t', foldM compute_node_cost t vs = Ok t' /\ gok t' /\ csum t' /\ rc_ok t' /\
    t' = w_cost t (u_ncost t') (u_rcost t) (u_cost t') /\
    (forall v, In v vs -> nc_at t' v) /\ (forall v, ~ In v vs -> get v (u_ncost t') = get v (u_ncost t)).
Proof.
  induction vs as [|v vs IH]; intros t G C R I.
  - exists t. simpl. split; auto. split; auto. split; auto. split; auto. split; [destruct t; auto|]. split; [tauto|auto].
  - destruct (@compute_node_cost_ok t v G C (I v (or_introl eq_refl))) as (t1 & c & E1 & Et & C1 & N1).
    assert (G1 : gok t1) by (rewrite Et; apply gok_cost; auto).
    assert (R1 : rc_ok t1) by (rewrite Et; exact R).
    destruct (IH t1 G1 C1 R1) as (t2 & E2 & G2 & C2 & R2 & Et2 & N2 & O2).
    { intros w Hw. rewrite Et. apply (I w). right; auto. }
    exists t2. cbn [foldM]. rewrite E1. cbn [bind]. split; auto. split; auto. split; auto. split; auto. split; [rewrite Et2, Et; reflexivity|].
    split.
    + intros w [<-|Hw]; auto. destruct (in_dec Nat.eq_dec v vs) as [J|J]; auto.
      intros p c0 c1 Hp Hq. rewrite (O2 v J). rewrite Et2 in Hp, Hq |- *. cbn [w_cost u_n u_par u_adj u_open u_sub] in *. apply N1; auto.
    + intros w Hw. rewrite O2 by (intros J; apply Hw; right; auto). rewrite Et. cbn [w_cost u_ncost]. apply get_set_neq. intros ->. apply Hw. left; auto.
Qed.

Theorem init_ok lhs rhs p : 2 <= length lhs -> valid_lin (length lhs) p -> pairwise p ->
  exists t a b T, uct_init lhs rhs p = Ok t /\ uok t /\ u_n t = length lhs /\ u_open t = mkset rhs /\ u_leaf t = map mkset lhs /\
    view (u_n t) (nbs (u_adj t)) a b /\ u_root t = (uid a, uid b) /\ lin_tree (length lhs) p = Some T /\ swapped (vshape a b) T /\
    (forall x, nbs (u_adj t) x <> [] <-> x < 2 * u_n t - 2).
Proof.
  set (n := length lhs). intros Ln VP PW. pose proof (@valid_vto _ _ VP PW) as VT.
  assert (Np : p <> []) by (intros ->; simpl in VP; lia).
  pose proof (app_removelast_last [] Np) as Ep. set (q := removelast p) in *. set (s := last p []) in *. assert (Eq : removelast p = q) by reflexivity. clearbody q s. rewrite Ep in VT.
  apply vto_split in VT as (m & V1 & V2). simpl in V2. destruct V2 as (Ls & Ns & Fs & Em).
  destruct s as [|i [|j [|]]]; try discriminate. apply NoDup_cons_iff in Ns as [Nij _]. apply Forall_cons_iff in Fs as [Fi Fs']. apply Forall_cons_iff in Fs' as [Fj _].
  assert (Nij' : i <> j) by (intros ->; apply Nij; simpl; auto).
  assert (m = 2) by lia. subst m. clear Em Ls Nij.
  pose proof (forest_start n) as F0.
  assert (L0 : length (map UL (seq 0 n)) = n) by (rewrite map_length, seq_length; auto).
  rewrite <- L0 in V1.
  destruct (@build_ok n q n _ _ _ _ 2 F0 (le_n n) V1 (start_swapped (seq 0 n))) as (k & adj0 & par0 & F & T & B1 & B2 & B3 & B4 & B5 & B6).
  destruct F as [|a [|b [|]]]; try discriminate. clear B5.
  destruct (forest_end B2 B6) as (V & Pa & Pb & Ek & NK & Cov). cbv zeta in *.
  set (adj := add_edge (uid a) (uid b) adj0) in *. set (par := set (uid b) (uid a) (set (uid a) (uid b) par0)) in *.
  assert (LL : length (map mkset lhs) = n) by apply map_length.
  assert (LA : Forall asc (map mkset lhs)). { apply Forall_forall. intros x Hx. apply in_map_iff in Hx as (y & <- & _). apply mkset_asc. }
  destruct (@pre_fold n (map mkset lhs) adj a b LL LA V (edge_list adj) []) as (sub & S1 & S2 & _ & S3).
  { intros x y Hx. apply (@edge_list_In n (map mkset lhs) adj a b LL V NK) in Hx. tauto. }
  { intros x y z Hz. discriminate. }
  pose proof (@sub_all n (map mkset lhs) adj a b LL V NK _ S2 S3) as SO.
  set (t0 := Uct n (mkset rhs) (map mkset lhs) adj par (uid a, uid b) sub [] 0 0).
  assert (G0 : gok t0).
  { split; cbn [t0 u_n u_adj u_par u_root u_leaf u_sub].
    - exists a, b. auto.
    - apply (@pars_view n _ _ a b V); auto.
    - cbn [fst snd]. unfold par. rewrite get_set_eq. split; auto. rewrite get_set_neq; [apply get_set_eq|]. apply not_eq_sym, (@view_nodup_neq _ _ _ _ V).
    - auto. }
  assert (C0 : csum t0). { split; cbn; auto; [constructor|tauto]. }
  destruct (@compute_root_cost_ok t0 G0 C0) as (t1 & E1 & Et1 & C1 & R1).
  assert (G1 : gok t1) by (rewrite Et1; apply gok_cost; auto).
  destruct (@nodes_ok (seq n (n - 2)) t1 G1 C1 R1) as (t2 & E2 & G2 & C2 & R2 & Et2 & N2 & O2).
  { intros v Hv. apply in_seq in Hv. rewrite Et1. split; cbn [w_cost u_n u_adj t0]; [lia|]. apply Cov. lia. }
  assert (Q : u_n t2 = n /\ u_open t2 = mkset rhs /\ u_leaf t2 = map mkset lhs /\ u_adj t2 = adj /\ u_root t2 = (uid a, uid b)) by (rewrite Et2, Et1; cbn; auto).
  destruct Q as (Q1 & Q2 & Q3 & Q4 & Q5). apply Forall2_two in B4 as (Ta & Tb & -> & Sa & Sb).
  assert (exists TT, lin_tree n p = Some TT /\ swapped (vshape a b) TT) as (TT & TT1 & TT2).
  { unfold lin_tree. rewrite Ep. rewrite (lin_run_app _ _ _ _ B3). cbn [lin_run]. unfold vshape.
    destruct i as [|[|i]], j as [|[|j]]; try lia; simpl; eexists; (split; [reflexivity|]); [apply sw_keep|apply sw_swap]; auto. }
  exists t2, a, b, TT. split.
  - unfold uct_init. fold n. replace (n =? 1) with false by (symmetry; apply Nat.eqb_neq; lia). rewrite Eq.
    replace (map uid (map UL (seq 0 n))) with (seq 0 n) in B1 by (rewrite map_map; simpl; rewrite map_id; auto).
    rewrite B1. cbn [bind map]. fold adj par. rewrite S1. cbn [bind]. fold t0. rewrite E1. cbn [bind]. exact E2.
  - split.
    + split; auto. intros v. destruct (in_dec Nat.eq_dec v (seq n (n - 2))) as [I|I]; auto.
      intros p' c0 c1 _ P. exfalso. rewrite Q4 in P. destruct (le_lt_dec n v) as [Hv|Hv].
      * apply I, in_seq. assert (v < k); [|lia]. apply Cov. intros E. rewrite E in P. apply Permutation_nil in P. discriminate.
      * destruct (@view_leaf _ _ _ _ v V) as [K _]. { intros E. rewrite E in P. apply Permutation_nil in P. discriminate. }
        destruct (K Hv) as (z & Ez). rewrite Ez in P. apply Permutation_length in P. discriminate.
    + rewrite Q1, Q4. rewrite <- Ek. auto 12.
Qed.
