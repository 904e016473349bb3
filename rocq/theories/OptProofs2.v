(** * The greedy path optimiser returns valid paths *)
From Coq Require Import List Arith ZArith Lia Bool Permutation Sorted.
From Verif Require Import Base PathSpec ModelOrder OrderProofs ModelPath PathProofs ModelOpt OptProofs.
Import ListNotations.
Set Implicit Arguments.
Open Scope nat_scope.

(** ** canonical sets have no repetition *)
Lemma sins_sorted x l : StronglySorted lt l -> StronglySorted lt (sins x l).
Proof.
  induction l as [|y r IH]; intros Srt; simpl; [repeat constructor|]. inversion Srt as [|? ? S1 S2]; subst.
  destruct (Nat.ltb_spec x y).
  - constructor; auto. constructor; auto. eapply Forall_impl; [|apply S2]. simpl; intros; lia.
  - destruct (Nat.eqb_spec x y); auto. constructor; auto. apply Forall_forall. intros z I. apply sins_In in I as [->|I]; [lia|].
    rewrite Forall_forall in S2. auto.
Qed.
Lemma mkset_NoDup l : NoDup (mkset l).
Proof.
  assert (Srt : StronglySorted lt (mkset l)).
  { induction l; simpl; [constructor|]. apply sins_sorted. auto. }
  induction Srt as [|x r S IH F]; constructor; auto. intros I. rewrite Forall_forall in F. apply F in I. lia.
Qed.

(** ** values of a dictionary *)
Section Vals.
  Context {K : Type} `{Eqb K}.
  Lemma vals_get (rem : list (K * nat)) k v : NoDup (keys rem) -> get k rem = Some v ->
    Permutation (map snd rem) (v :: map snd (del k rem)).
  Proof.
    induction rem as [|[k' v'] r IH]; intros N E; [discriminate|]. simpl in *. inversion N; subst.
    destruct (eqb_spec k k') as [->|D]; simpl.
    - inversion E; subst. constructor.
      assert (Ed : del k' r = r); [|rewrite Ed; auto].
      clear - H2. induction r as [|[a b] r IH]; simpl; auto. destruct (eqb_spec k' a) as [->|]; simpl.
      + exfalso. apply H2. simpl. auto.
      + rewrite IH; auto. intros I. apply H2. simpl. auto.
    - etransitivity; [apply perm_skip, IH; auto|apply perm_swap].
  Qed.
  Lemma vals_set (rem : list (K * nat)) k v : NoDup (keys rem) -> Permutation (map snd (set k v rem)) (v :: map snd (del k rem)).
  Proof.
    intros N. assert (E := get_set_eq k v rem). apply vals_get in E; [|apply keys_set_NoDup; auto].
    assert (Ed : del k (set k v rem) = del k rem); [|rewrite Ed in E; auto].
    clear. induction rem as [|[a b] r IH]; simpl; [destruct (eqb_spec k k); auto; congruence|].
    destruct (eqb_spec k a) as [->|D]; simpl.
    - destruct (eqb_spec a a); [auto|congruence].
    - destruct (eqb_spec k a); [congruence|]. simpl. rewrite IH. auto.
  Qed.
  Lemma vals_del_none (rem : list (K * nat)) k : get k rem = None -> del k rem = rem.
  Proof.
    induction rem as [|[a b] r IH]; simpl; auto. destruct (eqb_spec k a); [discriminate|]. simpl. intros E. rewrite IH; auto.
  Qed.
End Vals.

Lemma opens_pair n path l next a b R : opens_to n path l next -> NoDup l -> (forall x, In x l -> x < next) ->
  Permutation l (a :: b :: R) ->
  opens_to n (path ++ [[a; b]]) (next :: R) (S next) /\ NoDup (next :: R) /\ (forall x, In x (next :: R) -> x < S next).
Proof.
  intros O N B P. assert (N' : NoDup (a :: b :: R)) by (eapply Permutation_NoDup; eauto).
  inversion N' as [|? ? Na N1]; inversion N1 as [|? ? Nb N2]; subst.
  assert (Ef : filter (fun x => negb (mem x [a; b])) (a :: b :: R) = R).
  { assert (Ea : mem a [a; b] = true) by (apply mem_In; simpl; auto). assert (Eb : mem b [a; b] = true) by (apply mem_In; simpl; auto).
    cbn [filter]. rewrite Ea, Eb. cbn [negb].
    assert (G : forall R', incl R' R -> filter (fun x => negb (mem x [a; b])) R' = R').
    { induction R' as [|x r IH]; intros I; auto. cbn [filter].
      assert (Ex : mem x [a; b] = false).
      { apply mem_false. intros [->|[->|[]]]; [apply Na; right|apply Nb]; apply I; left; auto. }
      rewrite Ex. cbn [negb]. rewrite IH; auto. intros y Iy. apply I. right; auto. }
    apply G. intros x; auto. }
  assert (Hb : forall x, In x R -> x < next).
  { intros x I. apply B. eapply Permutation_in; [symmetry; apply P|]. right; right; auto. }
  split; [|split].
  - apply (opens_perm P) in O. apply (opens_step (s := [a; b])) in O; [|discriminate| |].
    + rewrite Ef in O. eapply opens_perm; [|apply O]. symmetry. apply Permutation_cons_append.
    + constructor; [simpl; intros [E|[]]; subst; apply Na; left; auto|]. constructor; auto. constructor.
    + intros x [<-|[<-|[]]]; simpl; auto.
  - constructor; auto. intros I. apply Hb in I. lia.
  - intros x [<-|I]; [lia|]. apply Hb in I. lia.
Qed.

(** ** dim_to_keys *)
Lemma d2k_set d x l y : d2k (set x l d) y = if y =? x then l else d2k d y.
Proof. unfold d2k. rewrite get_set. change (eqb y x) with (y =? x). destruct (y =? x); auto. Qed.
Lemma add_key_In k dims : forall d x y,
  In y (d2k (fold_left (add_key k) dims d) x) <-> In y (d2k d x) \/ (In x dims /\ y = k).
Proof.
  induction dims as [|z r IH]; intros d x y; cbn [fold_left]; [simpl; tauto|]. rewrite IH. unfold add_key at 1. rewrite d2k_set.
  destruct (Nat.eqb_spec x z) as [->|N].
  - destruct (mem k (d2k d z)) eqn:E; [apply mem_In in E|]; cbn [In].
    + split; [tauto|]. intros [A|[_ ->]]; auto.
    + rewrite in_app_iff. cbn [In]. split.
      * intros [[A|[A|[]]]|A]; [auto|right; split; auto|tauto].
      * intros [A|[_ A]]; auto.
  - cbn [In]. split.
    + intros [A|A]; tauto.
    + intros [A|[[A|A] B]]; [auto|congruence|auto].
Qed.
Lemma remove_key_ok k dims : forall d, NoDup dims -> (forall x, In x dims -> In k (d2k d x)) ->
  exists d', foldM (remove_key k) d dims = Ok d' /\
    forall x y, In y (d2k d' x) <-> In y (d2k d x) /\ ~ (In x dims /\ y = k).
Proof.
  induction dims as [|z r IH]; intros d N H; simpl.
  - exists d. split; auto. intros. tauto.
  - inversion N as [|? ? Nz Nr]; subst. unfold remove_key at 1. assert (Ez := H z (or_introl eq_refl)). apply mem_In in Ez. rewrite Ez.
    cbn [bind]. destruct (IH (set z (filter (fun y => negb (eqb k y)) (d2k d z)) d)) as (d' & E & S); auto.
    { intros x I. rewrite d2k_set. destruct (Nat.eqb_spec x z) as [->|]; [contradiction|]. apply H. right; auto. }
    exists d'. split; auto. intros x y. rewrite S, d2k_set. destruct (Nat.eqb_spec x z) as [->|D].
    + rewrite filter_In, negb_true_iff. destruct (eqb_spec k y) as [->|D]; intuition congruence.
    + assert (z <> x) by congruence. tauto.
Qed.

Lemma pop_at_in {A} i (q : list A) : q <> [] -> exists x r, pop_at i q = Some (x, r) /\ Permutation q (x :: r).
Proof.
  intros Ne. unfold pop_at. set (j := if i <? length q then i else 0).
  assert (L : j < length q) by (unfold j; destruct (Nat.ltb_spec i (length q)); auto; destruct q; simpl; [congruence|lia]).
  clearbody j. destruct (nth_error q j) as [x|] eqn:E; [|apply nth_error_None in E; lia].
  do 2 eexists. split; [reflexivity|]. apply nth_error_split in E as (a & b & -> & <-).
  unfold del_nth. rewrite firstn_app, firstn_all, Nat.sub_diag. simpl. rewrite app_nil_r.
  replace (match a ++ x :: b with [] => [] | _ :: l => skipn (length a) l end) with b.
  - symmetry. apply Permutation_middle.
  - clear. induction a; simpl; auto.
Qed.
Lemma pop_min_perm q : match pop_min q with Some (x, r) => Permutation q (x :: r) | None => q = [] end.
Proof.
  induction q as [|x r IH]; cbn [pop_min]; auto. destruct (pop_min r) as [[y s]|].
  - match goal with |- context[if ?b then _ else _] => destruct b end.
    + etransitivity; [apply perm_skip, IH|apply perm_swap].
    + auto.
  - subst. auto.
Qed.

Section GreedyProof.
  Variable sizes : list (nat * Z).
  Variable choose_push choose_pop : lpath -> list gcand -> nat.
  Variable push_all : bool.
  Variable n : nat.
  Variable output : nset.

  Definition gcok (c : gcand) : Prop := g_k1 c <> g_k2 c /\ known sizes (g_k12 c) /\ NoDup (g_k12 c).
  Record gok (st : gstate) : Prop := Gok {
    gk_keys : NoDup (keys (g_rem st));
    gk_ids : NoDup (map snd (g_rem st));
    gk_next : forall x, In x (map snd (g_rem st)) -> x < g_next st;
    gk_open : opens_to n (g_path st) (map snd (g_rem st)) (g_next st);
    gk_known : forall k, In k (keys (g_rem st)) -> known sizes k /\ NoDup k;
    gk_foot : forall k, In k (keys (g_rem st)) -> exists z, get k (g_foot st) = Some z;
    gk_d2k : forall x k, In k (d2k (g_d2k st) x) <-> In k (keys (g_rem st)) /\ In x k /\ ~ In x output;
    gk_queue : Forall gcok (g_queue st) }.

  Lemma key_get (rem : list (nset * nat)) k : In k (keys rem) -> exists v, get k rem = Some v.
  Proof. intros I. destruct (get k rem) eqn:E; eauto. apply get_None in E. contradiction. Qed.

  Lemma get_candidate_ok st k1 k2 : gok st -> In k1 (keys (g_rem st)) -> In k2 (keys (g_rem st)) -> k1 <> k2 ->
    exists c, get_candidate sizes output st k1 k2 = Ok c /\ gcok c.
  Proof.
    intros G I1 I2 D. unfold get_candidate. destruct (gk_known G _ I1) as [K1 _]. destruct (gk_known G _ I2) as [K2 _].
    set (k12 := sunion _ _).
    assert (K : known sizes k12).
    { eapply known_sub; [apply (known_union K1 K2)|]. intros x I. unfold k12 in I. rewrite !sunion_In, !sinter_In, sdiff_In, !sunion_In, ?sinter_In in I.
      apply sunion_In. tauto. }
    assert (N : NoDup k12) by apply mkset_NoDup. clearbody k12.
    destruct (known_size K) as (s & ->). cbn [bind]. destruct (gk_foot G _ I1) as (f1 & ->). destruct (gk_foot G _ I2) as (f2 & ->).
    destruct (key_get _ _ I1) as (v1 & ->). destruct (key_get _ _ I2) as (v2 & ->).
    destruct (v2 <? v1); eexists; (split; [reflexivity|]); unfold gcok; simpl; auto.
  Qed.

  Lemma push_ok st k1 k2s : gok st -> In k1 (keys (g_rem st)) -> incl k2s (keys (g_rem st)) -> ~ In k1 k2s -> k2s <> [] ->
    exists new, push_candidate sizes choose_push push_all output st k1 k2s =
        Ok (GState (g_rem st) (g_next st) (g_path st) (g_d2k st) (g_ref2 st) (g_ref3 st) (g_foot st) (g_queue st ++ new)) /\
      Forall gcok new /\ length new <= length k2s.
  Proof.
    intros G I1 I2 D Ne. unfold push_candidate.
    assert (Ec : exists cs, mapM (get_candidate sizes output st k1) k2s = Ok cs /\ Forall gcok cs /\ length cs = length k2s).
    { clear Ne. induction k2s as [|k r IH]; simpl; [exists []; auto|].
      destruct (@get_candidate_ok st k1 k) as (c & -> & C); auto; [apply I2; left; auto|intros ->; apply D; left; auto|].
      cbn [bind]. destruct IH as (cs & -> & C2 & L); [intros x I; apply I2; right; auto|intros I; apply D; right; auto|]. cbn [bind].
      exists (c :: cs). simpl. auto. }
    destruct Ec as (cs & -> & Fc & L). cbn [bind]. destruct push_all.
    - cbn [bind]. exists cs. split; auto. split; auto. lia.
    - destruct (@pop_at_in _ (choose_push (g_path st) cs) cs) as (c & r & -> & P).
      { intros ->. destruct k2s; [congruence|discriminate]. }
      cbn [bind]. exists [c]. split; auto. split.
      + constructor; auto. rewrite Forall_forall in Fc. apply Fc. eapply Permutation_in; [symmetry; apply P|]. left; auto.
      + destruct k2s; [congruence|]. simpl. lia.
  Qed.

  Lemma gok_queue st q : gok st -> Forall gcok q ->
    gok (GState (g_rem st) (g_next st) (g_path st) (g_d2k st) (g_ref2 st) (g_ref3 st) (g_foot st) q).
  Proof. intros G F. destruct G. constructor; simpl; auto. Qed.

  Lemma dedup_length {A} `{Eqb A} (l m : list A) : incl l m -> length (dedup l) <= length m.
  Proof. intros I. apply NoDup_incl_length; [apply dedup_NoDup|]. intros x Ix. apply I. apply dedup_In. auto. Qed.

  Lemma greedy_loop_ok fuel : forall st, gok st -> g_rem st <> [] ->
    length (g_queue st) + length (g_rem st) * length (g_rem st) < fuel ->
    exists st', greedy_loop sizes choose_push choose_pop push_all fuel output st = Ok st' /\ gok st' /\ g_rem st' <> [].
  Proof.
    induction fuel as [|fuel IH]; intros st G Ne L; [lia|]. cbn [greedy_loop].
    destruct (g_queue st) as [|c0 q0] eqn:Eq; [eauto|]. rewrite <- Eq.
    destruct (@pop_at_in _ (choose_pop (g_path st) (g_queue st)) (g_queue st)) as (c & q & -> & P); [rewrite Eq; discriminate|].
    assert (Lq : length (g_queue st) = S (length q)) by (apply Permutation_length in P; auto).
    assert (Fq : Forall gcok (c :: q)) by (eapply Permutation_Forall; [apply P|apply G]).
    inversion Fq as [|? ? (Ck & Cn & Cd) Fq']; subst. rewrite <- Eq in L.
    destruct (has (g_k1 c) (g_rem st)) eqn:E1; cbn [andb].
    2:{ apply IH; simpl; auto; [apply gok_queue; auto|lia]. }
    destruct (has (g_k2 c) (g_rem st)) eqn:E2.
    2:{ apply IH; simpl; auto; [apply gok_queue; auto|lia]. }
    apply has_In in E1, E2. set (k1 := g_k1 c) in *. set (k2 := g_k2 c) in *. set (k12 := g_k12 c) in *.
    destruct (key_get _ _ E1) as (id1 & G1). rewrite G1.
    assert (E2' : In k2 (keys (del k1 (g_rem st)))) by (apply keys_del_In; auto).
    destruct (key_get _ _ E2') as (id2 & G2). rewrite G2.
    destruct (gk_known G _ E1) as [K1 D1]. destruct (gk_known G _ E2) as [K2 D2].
    destruct (@remove_key_ok k1 (sdiff k1 output) (g_d2k st)) as (d1 & -> & S1).
    { apply NoDup_filter. auto. }
    { intros x I. apply sdiff_In in I. apply (gk_d2k G). tauto. }
    cbn [bind]. destruct (@remove_key_ok k2 (sdiff k2 output) d1) as (d2 & -> & S2).
    { apply NoDup_filter. auto. }
    { intros x I. apply sdiff_In in I. apply S1. split; [apply (gk_d2k G); tauto|]. intros [_ E]. congruence. }
    cbn [bind]. set (rem := del k2 (del k1 (g_rem st))).
    assert (Nr1 : NoDup (keys (del k1 (g_rem st)))) by (apply keys_del_NoDup, G).
    assert (Nr : NoDup (keys rem)) by (apply keys_del_NoDup; auto).
    assert (Pr : Permutation (map snd (g_rem st)) (id1 :: id2 :: map snd rem)).
    { etransitivity; [apply (vals_get _ _ (gk_keys G) G1)|]. constructor. apply (vals_get _ _ Nr1 G2). }
    assert (Lr : length (g_rem st) = S (S (length rem))).
    { apply Permutation_length in Pr. simpl in Pr. rewrite !map_length in Pr. auto. }
    destruct (opens_pair (gk_open G) (gk_ids G) (gk_next G) Pr) as (O2 & N2 & B2).
    assert (Kr : forall k, In k (keys rem) <-> In k (keys (g_rem st)) /\ k <> k1 /\ k <> k2).
    { intros k. unfold rem. rewrite !keys_del_In. tauto. }
    assert (Sd : forall x k, In k (d2k d2 x) <-> In k (keys rem) /\ In x k /\ ~ In x output).
    { intros x k. rewrite S2, S1, (gk_d2k G), Kr, !sdiff_In. split.
      - intros ((A & B) & C). split; [split; [tauto|split; intros ->; tauto]|tauto].
      - intros ((A & B & C) & D). tauto. }
    assert (Step : exists d path next, match get k12 rem with
        | Some id => (d2, (g_path st ++ [[id1; id2]]) ++ [[id; g_next st]], S (g_next st))
        | None => (fold_left (add_key k12) (sdiff k12 output) d2, g_path st ++ [[id1; id2]], g_next st)
        end = (d, path, next) /\
        (forall x k, In k (d2k d x) <-> In k (keys (set k12 next rem)) /\ In x k /\ ~ In x output) /\
        opens_to n path (map snd (set k12 next rem)) (S next) /\ NoDup (map snd (set k12 next rem)) /\
        (forall x, In x (map snd (set k12 next rem)) -> x < S next) /\
        length (set k12 next rem) <= S (length rem)).
    { destruct (get k12 rem) as [id|] eqn:E12.
      - do 3 eexists. split; [reflexivity|].
        assert (Ik : In k12 (keys rem)) by (eapply get_Some_key; eauto).
        assert (P2 : Permutation (g_next st :: map snd rem) (id :: g_next st :: map snd (del k12 rem))).
        { etransitivity; [apply perm_skip, (vals_get _ _ Nr E12)|apply perm_swap]. }
        destruct (opens_pair O2 N2 B2 P2) as (O3 & N3 & B3).
        assert (Pv := @vals_set _ _ rem k12 (S (g_next st)) Nr).
        split; [|split; [|split; [|split]]].
        + intros x k. rewrite Sd, keys_set_In. split; [tauto|]. intros ([->|A] & B); auto.
        + eapply opens_perm; [symmetry; apply Pv|]. auto.
        + eapply Permutation_NoDup; [symmetry; apply Pv|]. auto.
        + intros x I. apply B3. eapply Permutation_in; [apply Pv|]. auto.
        + assert (Ek := keys_set k12 (S (g_next st)) rem). apply has_In in Ik. rewrite Ik in Ek.
          apply (f_equal (@length nset)) in Ek. unfold keys in Ek. rewrite !map_length in Ek. lia.
      - do 3 eexists. split; [reflexivity|].
        assert (Pv := @vals_set _ _ rem k12 (g_next st) Nr). rewrite (vals_del_none _ _ E12) in Pv.
        split; [|split; [|split; [|split]]].
        + intros x k. rewrite add_key_In, Sd, keys_set_In, sdiff_In. split.
          * intros [A|(A & ->)]; tauto.
          * intros ([->|A] & B); tauto.
        + eapply opens_perm; [symmetry; apply Pv|]. auto.
        + eapply Permutation_NoDup; [symmetry; apply Pv|]. auto.
        + intros x I. apply B2. eapply Permutation_in; [apply Pv|]. auto.
        + apply Permutation_length in Pv. simpl in Pv. rewrite !map_length in Pv. lia. }
    destruct Step as (d & path & next & -> & Td & To & Tn & Tb & Tl).
    destruct (known_size Cn) as (f & ->). cbn [bind].
    set (r := fold_left (update_ref d) _ _). set (st1 := GState _ _ _ _ _ _ _ _).
    assert (G' : gok st1).
    { constructor; simpl; auto.
      - apply keys_set_NoDup. auto.
      - intros k I. apply keys_set_In in I as [->|I]; auto. apply Kr in I. apply (gk_known G). tauto.
      - intros k I. rewrite get_set. destruct (eqb_spec k k12) as [->|D]; eauto.
        apply keys_set_In in I as [->|I]; [congruence|]. apply Kr in I. apply (gk_foot G). tauto. }
    set (k2s := filter _ _).
    assert (Kk : In k12 (keys (g_rem st1))) by (simpl; apply keys_set_In; auto).
    assert (I2 : incl k2s (keys (g_rem st1))).
    { intros k I. unfold k2s in I. apply filter_In in I as [I _]. rewrite dedup_In in I. apply in_flat_map in I as (x & _ & I).
      apply Td in I. simpl. tauto. }
    assert (N12 : ~ In k12 k2s).
    { intros I. unfold k2s in I. apply filter_In in I as [_ I]. apply negb_true_iff in I. destruct (eqb_spec k12 k12); congruence. }
    assert (L2 : length k2s <= length (g_rem st1)).
    { replace (length (g_rem st1)) with (length (keys (g_rem st1))) by (unfold keys; apply map_length).
      apply NoDup_incl_length; auto. apply NoDup_filter, dedup_NoDup. }
    assert (Ne1 : g_rem st1 <> []) by (intros E; rewrite E in Kk; destruct Kk).
    assert (Lm : length q + length (g_rem st1) + length (g_rem st1) * length (g_rem st1) < fuel).
    { simpl g_rem. assert (length (set k12 next rem) <= S (length rem)) by exact Tl. rewrite Lr in L. nia. }
    clearbody k2s. destruct k2s as [|k k2s'] eqn:E2s.
    - cbn [bind]. apply IH; auto. simpl g_queue. lia.
    - destruct (@push_ok st1 k12 (k :: k2s')) as (new & -> & Fn & Ln); auto; [discriminate|]. cbn [bind].
      apply IH.
      + apply gok_queue; auto. apply Forall_app. split; auto.
      + exact Ne1.
      + cbn [g_queue g_rem]. rewrite app_length. change (g_rem st1) with (set k12 next rem) in *. simpl g_queue. simpl length in *. lia.
  Qed.

  Lemma outer_loop_ok fuel : forall id1 k1 q next path,
    length q <= fuel -> known sizes k1 -> Forall (fun e => known sizes (snd e)) q ->
    opens_to n path (id1 :: map (fun e => snd (fst e)) q) next -> NoDup (id1 :: map (fun e => snd (fst e)) q) ->
    (forall x, In x (id1 :: map (fun e => snd (fst e)) q) -> x < next) ->
    exists p, outer_loop sizes fuel output id1 k1 q next path = Ok p /\ valid_ssa n p.
  Proof.
    induction fuel as [|fuel IH]; intros id1 k1 q next path L K F O N B; cbn [outer_loop]; pose proof (pop_min_perm q) as P;
      destruct (pop_min q) as [[[[c2 id2] k2] q1]|].
    - apply Permutation_length in P. simpl in P. lia.
    - subst q. eexists. split; [reflexivity|]. eapply opens_end; eauto.
    - assert (Pm := Permutation_map (fun e => snd (fst e)) P). cbn [map fst snd] in Pm.
      assert (Fq : Forall (fun e => known sizes (snd e)) ((c2, id2, k2) :: q1)) by (eapply Permutation_Forall; eauto).
      inversion Fq as [|? ? F1 F2]; subst. simpl in F1.
      assert (Kk : known sizes (sinter (sunion k1 k2) output)) by (apply known_inter, known_union; auto).
      destruct (known_size Kk) as (c & ->). cbn [bind]. set (k12 := sinter _ _) in *.
      pose proof (pop_min_perm (q1 ++ [(c, next, k12)])) as P2.
      destruct (pop_min (q1 ++ [(c, next, k12)])) as [[[[c3 id3] k3] q3]|]; [|destruct q1; discriminate].
      assert (Pm2 := Permutation_map (fun e => snd (fst e)) P2). rewrite map_app in Pm2. cbn [map fst snd] in Pm2.
      assert (P3 : Permutation (id1 :: map (fun e => snd (fst e)) q) (Nat.min id1 id2 :: Nat.max id1 id2 :: map (fun e => snd (fst e)) q1)).
      { etransitivity; [apply perm_skip, Pm|]. destruct (Nat.le_gt_cases id1 id2).
        - rewrite Nat.min_l, Nat.max_r by lia. auto.
        - rewrite Nat.min_r, Nat.max_l by lia. apply perm_swap. }
      destruct (opens_pair O N B P3) as (O2 & N2 & B2).
      assert (P4 : Permutation (next :: map (fun e => snd (fst e)) q1) (id3 :: map (fun e => snd (fst e)) q3)).
      { etransitivity; [apply Permutation_cons_append|]. exact Pm2. }
      assert (Fn : Forall (fun e => known sizes (snd e)) ((c3, id3, k3) :: q3)).
      { eapply Permutation_Forall; [apply P2|]. apply Forall_app. split; auto. }
      inversion Fn as [|? ? F3 F4]; subst. simpl in F3.
      apply IH; auto.
      + apply Permutation_length in P, P2. rewrite app_length in P2. simpl in P, P2. lia.
      + eapply opens_perm; eauto.
      + eapply Permutation_NoDup; eauto.
      + intros x I. apply B2. eapply Permutation_in; [symmetry; apply P4|]. auto.
    - subst q. eexists. split; [reflexivity|]. eapply opens_end; eauto.
  Qed.
End GreedyProof.

(** ** removing duplicates first *)
Lemma dedup_inputs_ok n (inputs : list nset) : forall i rem next path,
  i + length inputs = n -> n <= next ->
  NoDup (keys rem) -> NoDup (map snd rem ++ seq i (length inputs)) ->
  (forall x, In x (map snd rem ++ seq i (length inputs)) -> x < next) ->
  opens_to n path (map snd rem ++ seq i (length inputs)) next ->
  exists rem' next' path', dedup_inputs i inputs rem next path = (rem', next', path') /\
    NoDup (keys rem') /\ NoDup (map snd rem') /\ (forall x, In x (map snd rem') -> x < next') /\
    opens_to n path' (map snd rem') next' /\ (forall k, In k (keys rem') <-> In k (keys rem) \/ In k inputs).
Proof.
  induction inputs as [|k r IH]; intros i rem next path L Ln Nk Ni B O; cbn [dedup_inputs length seq] in *.
  - rewrite app_nil_r in *. do 3 eexists. split; [reflexivity|]. split; auto. split; auto. split; auto. split; auto. simpl. tauto.
  - destruct (get k rem) as [id|] eqn:E.
    + assert (P : Permutation (map snd rem ++ i :: seq (S i) (length r)) (id :: i :: map snd (del k rem) ++ seq (S i) (length r))).
      { etransitivity; [apply Permutation_app_tail, (vals_get _ _ Nk E)|]. simpl. constructor. symmetry. apply Permutation_middle. }
      destruct (opens_pair O Ni B P) as (O2 & N2 & B2).
      assert (Pv : Permutation (next :: map snd (del k rem) ++ seq (S i) (length r)) (map snd (set k next rem) ++ seq (S i) (length r))).
      { symmetry. etransitivity; [apply Permutation_app_tail, (@vals_set _ _ rem k next Nk)|]. auto. }
      destruct (IH (S i) (set k next rem) (S next) (path ++ [[id; i]])) as (rem' & next' & path' & E' & H1 & H2 & H3 & H4 & H5); auto; try lia.
      * apply keys_set_NoDup; auto.
      * eapply Permutation_NoDup; eauto.
      * intros x I. apply B2. eapply Permutation_in; [symmetry; apply Pv|]. auto.
      * eapply opens_perm; eauto.
      * exists rem', next', path'. split; auto. split; auto. split; auto. split; auto. split; auto.
        intros x. rewrite H5, keys_set_In. simpl. split; intros; intuition.
    + assert (Ek : map snd (set k i rem) ++ seq (S i) (length r) = map snd rem ++ i :: seq (S i) (length r)).
      { assert (Es : set k i rem = rem ++ [(k, i)]).
        { clear - E. induction rem as [|[a b] q IH]; simpl in *; auto. destruct (eqb_spec k a); [discriminate|]. rewrite IH; auto. }
        rewrite Es, map_app, <- app_assoc. auto. }
      destruct (IH (S i) (set k i rem) next path) as (rem' & next' & path' & E' & H1 & H2 & H3 & H4 & H5); auto; try lia; rewrite ?Ek; auto.
      * apply keys_set_NoDup; auto.
      * exists rem', next', path'. split; auto. split; auto. split; auto. split; auto. split; auto.
        intros x. rewrite H5, keys_set_In. simpl. split; intros; intuition.
Qed.

Lemma dims_of_In output rem x k : In k (d2k (dims_of output rem) x) <-> In k (keys rem) /\ In x k /\ ~ In x output.
Proof.
  unfold dims_of. assert (G : forall ks d, In k (d2k (fold_left (fun d k => fold_left (add_key k) (sdiff k output) d) ks d) x) <->
    In k (d2k d x) \/ (In k ks /\ In x k /\ ~ In x output)).
  { induction ks as [|a r IH]; intros d; simpl; [tauto|]. rewrite IH, add_key_In, sdiff_In. split.
    - intros [[A|(A & ->)]|A]; tauto.
    - intros [A|([->|A] & B)]; tauto. }
  rewrite G. unfold d2k at 1. simpl. tauto.
Qed.
Lemma dims_of_NoDup output rem x l : In (x, l) (dims_of output rem) -> NoDup l /\ incl l (keys rem).
Proof.
  intros I. assert (Nk : NoDup (keys (dims_of output rem)) /\ (forall y, NoDup (d2k (dims_of output rem) y))).
  { unfold dims_of. assert (G : forall ks d, NoDup (keys d) /\ (forall y, NoDup (d2k d y)) ->
      NoDup (keys (fold_left (fun d k => fold_left (add_key k) (sdiff k output) d) ks d)) /\
      (forall y, NoDup (d2k (fold_left (fun d k => fold_left (add_key k) (sdiff k output) d) ks d) y))).
    { induction ks as [|a r IH]; intros d H; simpl; auto. apply IH.
      assert (G2 : forall dims d, NoDup (keys d) /\ (forall y, NoDup (d2k d y)) ->
        NoDup (keys (fold_left (add_key a) dims d)) /\ (forall y, NoDup (d2k (fold_left (add_key a) dims d) y))); [|apply G2; auto].
      clear. induction dims as [|z r IH]; intros d H; simpl; auto. apply IH. destruct H as [H1 H2]. split.
      - apply keys_set_NoDup. auto.
      - intros y. unfold add_key. rewrite d2k_set. destruct (y =? z); auto. destruct (mem a (d2k d z)) eqn:E; auto.
        apply NoDup_app_iff. split; auto. split; [repeat constructor; auto|]. intros w I [<-|[]]. apply mem_false in E. contradiction. }
    apply G. split; [constructor|]. intros y. constructor. }
  destruct Nk as [N1 N2]. assert (E : d2k (dims_of output rem) x = l).
  { unfold d2k. rewrite (@In_get _ _ _ _ _ _ N1 I). auto. }
  split; [rewrite <- E; auto|]. intros k Ik. rewrite <- E in Ik. apply dims_of_In in Ik. tauto.
Qed.

Section GreedyMain.
  Variable sizes : list (nat * Z).
  Variable choose_push choose_pop : lpath -> list gcand -> nat.
  Variable push_all : bool.

  Lemma push_keys_ok n output ks : forall st, gok sizes n output st -> NoDup ks -> incl ks (keys (g_rem st)) ->
    exists q, push_keys sizes choose_push push_all output st ks =
      Ok (GState (g_rem st) (g_next st) (g_path st) (g_d2k st) (g_ref2 st) (g_ref3 st) (g_foot st) q) /\ Forall (gcok sizes) q.
  Proof.
    induction ks as [|k r IH]; intros st G N I.
    - simpl. exists (g_queue st). split; [destruct st; auto|apply G].
    - destruct r as [|k' r'].
      + simpl. exists (g_queue st). split; [destruct st; auto|apply G].
      + cbn [push_keys]. inversion N as [|? ? Nk Nr]; subst.
        destruct (@push_ok sizes choose_push push_all n output st k (k' :: r')) as (new & -> & Fn & _); auto.
        { apply I; left; auto. } { intros x Ix. apply I. right; auto. } { discriminate. }
        cbn [bind]. destruct (IH (GState (g_rem st) (g_next st) (g_path st) (g_d2k st) (g_ref2 st) (g_ref3 st) (g_foot st) (g_queue st ++ new))) as (q & E & F); auto.
        * apply gok_queue; auto. apply Forall_app. split; auto. apply G.
        * intros x Ix. apply I. right; auto.
        * exists q. split; auto.
  Qed.

  Theorem ssa_greedy_valid (inputs : list nset) out : inputs <> [] -> Forall (known sizes) inputs -> Forall (@NoDup nat) inputs ->
    exists s, ssa_greedy sizes choose_push choose_pop push_all inputs out = Ok s /\ valid_ssa (length inputs) s.
  Proof.
    intros Ne K D. unfold ssa_greedy. destruct inputs as [|k0 [|k1 inputs']] eqn:Ei; [congruence| |].
    { eexists. split; [reflexivity|]. cbn. split; [discriminate|]. split; [repeat constructor; auto|]. split; [intros x [<-|[]]; left; auto|]. auto. }
    rewrite <- Ei in *. clear Ei k0 k1 inputs'. set (output := sunion out (common inputs)). set (n := length inputs).
    destruct (@dedup_inputs_ok n inputs 0 [] n []) as (rem & next & path & -> & H1 & H2 & H3 & H4 & H5); auto.
    { constructor. } { simpl. apply seq_NoDup. } { simpl. intros x I. apply in_seq in I. lia. } { simpl. apply opens_start. }
    assert (Kr : forall k, In k (keys rem) -> known sizes k /\ NoDup k).
    { intros k I. apply H5 in I as [[]|I]. rewrite Forall_forall in K, D. auto. }
    assert (Ef : exists foot, mapM (fun k => do s <- size_by_dict k sizes; Ok (k, s)) (keys rem) = Ok foot /\ keys foot = keys rem).
    { clear - Kr. induction (keys rem) as [|k r IH]; simpl; [exists []; auto|].
      destruct (@known_size sizes k) as (z & ->); [apply Kr; left; auto|]. cbn [bind].
      destruct IH as (foot & -> & E); [intros; apply Kr; right; auto|]. cbn [bind]. exists ((k, z) :: foot). simpl. rewrite E. auto. }
    destruct Ef as (foot & -> & Kf). cbn [bind]. set (st0 := GState _ _ _ _ _ _ _ _).
    assert (G0 : gok sizes n output st0).
    { constructor; simpl; auto.
      - intros k I. destruct (get k foot) eqn:E; eauto. apply get_None in E. exfalso. apply E. change (In k (keys foot)). pose proof Kf as Kf2. unfold nset in *. rewrite Kf2. exact I.
      - intros x k. apply dims_of_In. }
    assert (Nr : rem <> []).
    { intros ->. destruct inputs as [|k r]; [congruence|]. apply (proj2 (H5 k)). right; left; auto. }
    assert (Eq : exists q, init_queue sizes choose_push push_all output st0 =
        Ok (GState (g_rem st0) (g_next st0) (g_path st0) (g_d2k st0) (g_ref2 st0) (g_ref3 st0) (g_foot st0) q) /\ Forall (gcok sizes) q).
    { unfold init_queue.
      destruct (@foldM_inv _ _ (fun st d => push_keys sizes choose_push push_all output st (sort_key (key_id (g_rem st)) (snd d)))
        (fun st => exists q, st = GState (g_rem st0) (g_next st0) (g_path st0) (g_d2k st0) (g_ref2 st0) (g_ref3 st0) (g_foot st0) q /\ Forall (gcok sizes) q)
        (g_d2k st0) st0) as (st' & E & q & -> & F).
      - exists []. split; auto.
      - intros st [x l] I (q & -> & F). apply dims_of_NoDup in I as [I1 I2]. cbn [snd g_rem].
        edestruct push_keys_ok as (q' & -> & F'); [apply (gok_queue G0 F)| | |].
        + eapply Permutation_NoDup; [symmetry; apply sort_key_perm|]; auto.
        + intros k Ik. simpl. apply I2. eapply Permutation_in; [apply sort_key_perm|]; eauto.
        + eexists. split; [reflexivity|]. exists q'. simpl. auto.
      - eauto. }
    destruct Eq as (q & -> & Fq). cbn [bind].
    destruct (@greedy_loop_ok sizes choose_push choose_pop push_all n output (S (length q + length rem * length rem))
      (GState (g_rem st0) (g_next st0) (g_path st0) (g_d2k st0) (g_ref2 st0) (g_ref3 st0) (g_foot st0) q)) as (st & E & G & Nst); auto.
    { apply gok_queue; auto. }
    match goal with |- context[greedy_loop ?a ?b ?c ?d ?f ?o ?s] =>
      replace (greedy_loop a b c d f o s) with (Ok st : res gstate) by (symmetry; exact E) end.
    cbn [bind].
    assert (Em : exists h, mapM (fun p => do s <- size_by_dict (sinter (fst p) output) sizes; Ok (s, snd p, fst p)) (g_rem st) = Ok h /\
       map (fun e => snd (fst e)) h = map snd (g_rem st) /\ map snd h = keys (g_rem st)).
    { assert (Kg : forall k, In k (keys (g_rem st)) -> known sizes k) by (intros; apply (gk_known G); auto).
      clear - Kg. induction (g_rem st) as [|[k v] r IH]; simpl in *; [exists []; auto|].
      destruct (@known_size sizes (sinter k output)) as (z & ->); [apply known_inter, Kg; left; auto|]. cbn [bind].
      destruct IH as (h & -> & E1 & E2); [intros; apply Kg; right; auto|]. cbn [bind]. exists ((z, v, k) :: h). simpl.
      rewrite E1, E2. auto. }
    destruct Em as (h & -> & Eh & Ek). cbn [bind]. pose proof (pop_min_perm h) as P.
    destruct (pop_min h) as [[[[c id1] k1] q1]|].
    2:{ subst h. simpl in Eh. destruct (g_rem st); [congruence|discriminate]. }
    assert (Pm := Permutation_map (fun e => snd (fst e)) P). cbn [map fst snd] in Pm. rewrite Eh in Pm.
    assert (Pk := Permutation_map snd P). cbn [map snd] in Pk. rewrite Ek in Pk.
    apply outer_loop_ok; auto.
    - apply (gk_known G). eapply Permutation_in; [symmetry; apply Pk|]. left; auto.
    - apply Forall_forall. intros e I. apply (gk_known G). eapply Permutation_in; [symmetry; apply Pk|]. right. apply in_map. auto.
    - eapply opens_perm; [apply Pm|]. apply G.
    - eapply Permutation_NoDup; [apply Pm|]. apply G.
    - intros x I. apply (gk_next G). eapply Permutation_in; [symmetry; apply Pm|]. auto.
  Qed.

  Theorem greedy_valid (inputs : list nset) out : inputs <> [] -> Forall (known sizes) inputs -> Forall (@NoDup nat) inputs ->
    exists p, greedy sizes choose_push choose_pop push_all inputs out = Ok (zpath p) /\ valid_lin (length inputs) p.
  Proof.
    intros Ne K D. unfold greedy. destruct (@ssa_greedy_valid inputs out) as (s & E & V); auto. rewrite E. cbn [bind].
    destruct s as [|s0 s].
    - cbn in V. rewrite seq_length in V. destruct inputs as [|k [|]]; try discriminate.
    - destruct (@ssa_linear_ssa (length inputs) (s0 :: s)) as (p & E1 & Vp & _); eauto. discriminate.
  Qed.
End GreedyMain.
