(** * switch_edges and step_root keep the invariant *)
From Coq Require Import List Arith ZArith Lia Bool Permutation Sorted.
From Verif Require Import Base PathSpec UctSpec ModelOrder ModelPath ModelOpt PathProofs OptProofs DPProofs DPProofs2 ModelUct UctProofs UctPath UctSwitch UctSwitch2.
Import ListNotations.
Set Implicit Arguments.
Open Scope nat_scope.

(** ** parents *)
Definition half_par (par : list (nat * nat)) (u c v : nat) : list (nat * nat) :=
  let par := if par_is par c u then set c v par else par in
  if par_is par u c then set u v (set v c par) else par.
Lemma half_par_get par u c v z : u <> c -> u <> v -> v <> c ->
  get z (half_par par u c v) =
    if z =? c then (if par_is par c u then Some v else get c par)
    else if z =? u then (if par_is par u c then Some v else get u par)
    else if z =? v then (if par_is par u c then Some c else get v par)
    else get z par.
Proof.
  intros N1 N2 N3. unfold half_par.
  assert (E : par_is (if par_is par c u then set c v par else par) u c = par_is par u c).
  { unfold par_is at 1 3. destruct (par_is par c u); auto. rewrite get_set_neq by congruence. auto. }
  cbn zeta. rewrite E. destruct (par_is par u c), (par_is par c u); rewrite ?get_set; change (@eqb nat _) with Nat.eqb;
    destruct (Nat.eqb_spec z c), (Nat.eqb_spec z u), (Nat.eqb_spec z v); subst; try congruence; auto.
Qed.
Definition full_par par u c0 v c1 := half_par (half_par par u c0 v) v c1 u.
Lemma full_par_get par u v c0 c1 x y : NoDup [u; v; c0; x; c1; y] ->
  let P := fun z => get z par in let P' := fun z => get z (full_par par u c0 v c1) in
  (forall z, z <> u -> z <> v -> z <> c0 -> z <> c1 -> P' z = P z) /\
  (P' c0 = if match P c0 with Some p => p =? u | None => false end then Some v else P c0) /\
  (P' c1 = if match P c1 with Some p => p =? v | None => false end then Some u else P c1) /\
  ((P u = Some v /\ P v = Some u -> P' u = Some v /\ P' v = Some u) /\
    (P u = Some v /\ P v = Some c1 -> P' u = Some c1 /\ P' v = Some u) /\
    (P u = Some v /\ P v = Some y -> P' u = Some v /\ P' v = Some y) /\
    (P u = Some c0 /\ P v = Some u -> P' u = Some v /\ P' v = Some c0) /\
    (P u = Some x /\ P v = Some u -> P' u = Some x /\ P' v = Some u)).
Proof.
  intros ND. assert (N : u <> v /\ u <> c0 /\ u <> x /\ u <> c1 /\ u <> y /\ v <> c0 /\ v <> x /\ v <> c1 /\ v <> y /\ c0 <> x /\ c0 <> c1 /\ c0 <> y /\ x <> c1 /\ x <> y /\ c1 <> y).
  { repeat match goal with H : NoDup (_ :: _) |- _ => inversion H; clear H; subst end. simpl in *. repeat split; intros E; rewrite E in *; tauto. }
  clear ND. destruct N as (N1 & N2 & N3 & N4 & N5 & N6 & N7 & N8 & N9 & N10 & N11 & N12 & N13 & N14 & N15). cbn zeta. unfold full_par.
  assert (G : forall z, get z (half_par (half_par par u c0 v) v c1 u) = if z =? c1 then (if par_is (half_par par u c0 v) c1 v then Some u else get c1 (half_par par u c0 v))
    else if z =? v then (if par_is (half_par par u c0 v) v c1 then Some u else get v (half_par par u c0 v))
    else if z =? u then (if par_is (half_par par u c0 v) v c1 then Some c1 else get u (half_par par u c0 v))
    else get z (half_par par u c0 v)) by (intros z; apply half_par_get; congruence).
  assert (E1 : forall z, get z (half_par par u c0 v) = _) by (intros z; apply (@half_par_get par u c0 v z); congruence).
  assert (F1 : par_is (half_par par u c0 v) c1 v = par_is par c1 v).
  { unfold par_is at 1. rewrite E1. destruct (Nat.eqb_spec c1 c0), (Nat.eqb_spec c1 u), (Nat.eqb_spec c1 v); try congruence. reflexivity. }
  assert (F2 : par_is (half_par par u c0 v) v c1 = if par_is par u c0 then false else par_is par v c1).
  { unfold par_is at 1. rewrite E1. destruct (Nat.eqb_spec v c0), (Nat.eqb_spec v u), (Nat.eqb_spec v v); try congruence.
    destruct (par_is par u c0); [apply Nat.eqb_neq; congruence|reflexivity]. }
  split; [|split; [|split]].
  - intros z Z1 Z2 Z3 Z4. rewrite G, !E1. destruct (Nat.eqb_spec z c1), (Nat.eqb_spec z v), (Nat.eqb_spec z u), (Nat.eqb_spec z c0); congruence.
  - rewrite G, !E1. destruct (Nat.eqb_spec c0 c1), (Nat.eqb_spec c0 v), (Nat.eqb_spec c0 u), (Nat.eqb_spec c0 c0); try congruence. reflexivity.
  - rewrite G, !E1, F1. destruct (Nat.eqb_spec c1 c1), (Nat.eqb_spec c1 v), (Nat.eqb_spec c1 u), (Nat.eqb_spec c1 c0); try congruence. reflexivity.
  - assert (Gu : get u (half_par (half_par par u c0 v) v c1 u) = if par_is par u c0 then Some v else if par_is par v c1 then Some c1 else get u par).
    { rewrite G, F2, !E1. destruct (Nat.eqb_spec u c1), (Nat.eqb_spec u v), (Nat.eqb_spec u u), (Nat.eqb_spec u c0); try congruence. destruct (par_is par u c0); auto. }
    assert (Gv : get v (half_par (half_par par u c0 v) v c1 u) = if par_is par u c0 then Some c0 else if par_is par v c1 then Some u else get v par).
    { rewrite G, F2, !E1. destruct (Nat.eqb_spec v c1), (Nat.eqb_spec v v), (Nat.eqb_spec v u), (Nat.eqb_spec v c0); try congruence. destruct (par_is par u c0); auto. }
    rewrite Gu, Gv. unfold par_is.
    repeat split; destruct H as [Hu Hv]; rewrite Hu, Hv;
      repeat match goal with |- context [?a =? ?b] => destruct (Nat.eqb_spec a b); try congruence end.
Qed.

(** ** subscripts *)
Definition half_sub (sub : list ((nat * nat) * nset)) (u c v : nat) (s0 s1 : nset) :=
  del (c, u) (del (u, c) (set (c, v) s1 (set (v, c) s0 sub))).
Lemma pre_two f n leaf adj sub p q k0 k1 s0 s1 : get (p, q) sub = None -> n <= q -> p <> k0 -> p <> k1 ->
  Permutation (nbs adj q) [p; k0; k1] -> get (q, k0) sub = Some s0 -> get (q, k1) sub = Some s1 ->
  preprocess (S f) n leaf adj sub p q = Ok (set (p, q) (sunion s0 s1) sub, sunion s0 s1).
Proof.
  intros E L N0 N1 Pm E0 E1. cbn [preprocess]. rewrite E. unfold is_leaf. rewrite (proj2 (Nat.ltb_ge _ _) L).
  assert (X : forall k s, get (q, k) sub = Some s -> preprocess f n leaf adj sub q k = Ok (sub, s)) by (intros k s Es; destruct f; cbn [preprocess]; rewrite Es; auto).
  destruct (@others_two adj q p k0 k1) as [-> | ->]; auto.
  - rewrite (X _ _ E0). cbn [bind fst snd]. rewrite (X _ _ E1). reflexivity.
  - rewrite (X _ _ E1). cbn [bind fst snd]. rewrite (X _ _ E0). cbn [bind fst snd]. rewrite (sunion_comm s1 s0). reflexivity.
Qed.

Lemma nc_set t v c ncost rc w z : ncost = set v c (u_ncost t) -> w <> v -> nc_at t w -> nc_at (w_cost t ncost rc z) w.
Proof.
  intros -> N H p k0 k1 E Pm. cbn [w_cost u_ncost u_n u_open u_sub u_par u_adj] in *. rewrite get_set_neq by congruence. apply H; auto.
Qed.

Definition same_frame (t t' : uct) : Prop := u_n t' = u_n t /\ u_open t' = u_open t /\ u_leaf t' = u_leaf t.

Lemma edge_sub_here sub x y : here sub x y -> edge_sub sub x y = Ok (sv sub x y).
Proof. intros H. unfold edge_sub. now rewrite (here_get H). Qed.

Theorem switch_ok t C X D Y u v : uok t -> view (u_n t) (nbs (u_adj t)) (UN u C X) (UN v D Y) ->
  exists t', switch_edges t u (uid C) v (uid D) = Ok t' /\ uok t' /\ same_frame t t' /\ 
    view (u_n t) (nbs (u_adj t')) (UN u D X) (UN v C Y).
Proof.
  intros U V. assert (n0 : exists f, 2 * u_n t = S f).
  { destruct V as (_ & _ & _ & _ & L). apply Permutation_length in L. rewrite app_length, seq_length in L. pose proof (height_lvs (UN u C X)). exists (2 * u_n t - 1). lia. }
  destruct U as [G CS RC NC].
  pose proof (@six _ _ _ _ _ _ _ _ V) as Six.
  destruct (@neqs _ _ _ _ _ _ _ _ V) as ((N1 & N2 & N3 & N4 & N5) & (N6 & N7 & N8 & N9) & (N10 & N11 & N12) & (N13 & N14) & N15).
  destruct (@exch_A _ _ _ _ _ _ _ _ V) as (Eu & Ev & Ec0 & Ec1).
  set (c0 := uid C) in *. set (c1 := uid D) in *. set (x := uid X) in *. set (y := uid Y) in *.
  set (A := nbs (u_adj t)) in *. set (n := u_n t) in *. set (sub := u_sub t) in *.
  assert (NDA : forall z, NoDup (A z)) by (intros z; apply (view_NoDup z V)).
  assert (KC : forall k, In k (kids C) -> k <> u /\ k <> v /\ k <> c0 /\ k <> c1 /\ k <> x /\ k <> y) by (apply (@kidsC _ _ _ _ _ _ _ _ V)).
  assert (KD : forall k, In k (kids D) -> k <> u /\ k <> v /\ k <> c0 /\ k <> c1 /\ k <> x /\ k <> y) by (intros k; apply (@kidsD _ _ _ _ _ _ _ _ k V)).
  (* the graph *)
  set (adj1 := del_edge u c0 (add_edge v c0 (u_adj t))).
  destruct (@half_adj (u_adj t) u v c0 [v; x] (kids C)) as (Q1 & Q2 & Q3 & Q4); auto.
  { eapply Permutation_NoDup; [|apply (NDA u)]. rewrite Eu. apply perm_swap. }
  { eapply Permutation_NoDup; [|apply (NDA c0)]. auto. }
  { fold A. rewrite Eu. apply perm_swap. }
  { fold A. rewrite Ev. simpl. intuition congruence. }
  { fold A. rewrite Ec0. intros [I|I]; [congruence|]. apply KC in I. tauto. }
  fold adj1 A in Q1, Q2, Q3, Q4.
  set (adj2 := del_edge v c1 (add_edge u c1 adj1)).
  assert (Q5 : nbs adj1 c1 = A c1) by (apply Q4; congruence).
  destruct (@half_adj adj1 v u c1 [c0; u; y] (kids D)) as (R1 & R2 & R3 & R4); auto.
  { repeat (constructor; simpl; [intuition congruence|]). constructor. }
  { eapply Permutation_NoDup; [|apply (NDA c1)]. auto. }
  { rewrite Q2, Ev. apply perm_trans with [c0; c1; u; y]; [apply perm_skip, perm_swap|apply perm_swap]. }
  { rewrite Q5. auto. }
  { rewrite Q1. simpl. intuition congruence. }
  { rewrite Q5, Ec1. intros [I|I]; [congruence|]. apply KD in I. tauto. }
  fold adj2 in R1, R2, R3, R4. set (A' := nbs adj2) in *.
  assert (Hu : Permutation (A' u) [v; c1; x]). { rewrite R2, Q1. apply perm_swap. }
  assert (Hv : Permutation (A' v) [u; c0; y]). { rewrite R1. apply perm_swap. }
  assert (Hc0 : Permutation (A' c0) (v :: kids C)). { unfold A'. rewrite R4 by congruence. auto. }
  assert (Hc1 : Permutation (A' c1) (u :: kids D)) by auto.
  assert (Hz : forall z, z <> u -> z <> v -> z <> c0 -> z <> c1 -> A' z = A z). { intros z Z1 Z2 Z3 Z4. unfold A'. rewrite R4 by congruence. apply Q4; congruence. }
  assert (V' : view n A' (UN u D X) (UN v C Y)) by (apply (exch_view A' V Hu Hv Hc0 Hc1 Hz)).
  (* the parents *)
  destruct (@full_par_get (u_par t) u v c0 c1 x y Six) as (Pz & Pc0 & Pc1 & Puv). set (par' := full_par (u_par t) u c0 v c1) in *.
  pose proof (g_par G) as K. fold A in K.
  assert (Back : forall p q, In q (A' p) -> ~ new C D u v p q -> In q (A p) /\ ~ bad C D u v p q) by (intros p q; apply (back_edge A' V Hu Hv Hc0 Hc1 Hz)).
  assert (K' : par_ok A' (fun z => get z par')) by (apply (@exch_par n A A' C X D Y u v V Hu Hv Hc0 Hc1 Hz _ _ K Pz Pc0 Pc1 Puv Back)).
  (* the subscripts *)
  pose proof (g_sub G) as SK. fold n A sub in SK.
  assert (Iuc0 : In c0 (A u)) by (rewrite Eu; simpl; auto). assert (Ic0u : In u (A c0)) by (rewrite Ec0; simpl; auto).
  assert (Ivc1 : In c1 (A v)) by (rewrite Ev; simpl; auto). assert (Ic1v : In v (A c1)) by (rewrite Ec1; simpl; auto).
  assert (Iux : In x (A u)) by (rewrite Eu; simpl; auto). assert (Ivy : In y (A v)) by (rewrite Ev; simpl; auto).
  set (sub1 := half_sub sub u c0 v (sv sub u c0) (sv sub c0 u)).
  set (sub2 := half_sub sub1 v c1 u (sv sub v c1) (sv sub c1 v)).
  set (sub3 := del (v, u) (del (u, v) sub2)).
  assert (T1 : get (v, c1) sub1 = get (v, c1) sub) by (unfold sub1, half_sub; rewrite !get_del_neq, !get_set_neq by congruence; auto).
  assert (T2 : get (c1, v) sub1 = get (c1, v) sub) by (unfold sub1, half_sub; rewrite !get_del_neq, !get_set_neq by congruence; auto).
  assert (T3 : get (u, c1) sub3 = Some (sv sub v c1)).
  { unfold sub3, sub2, half_sub. rewrite !get_del_neq by congruence. rewrite get_set_neq by congruence. apply get_set_eq. }
  assert (T4 : get (c1, u) sub3 = Some (sv sub c1 v)).
  { unfold sub3, sub2, half_sub. rewrite !get_del_neq by congruence. apply get_set_eq. }
  assert (T5 : get (v, c0) sub3 = Some (sv sub u c0)).
  { unfold sub3, sub2, half_sub. rewrite !get_del_neq, !get_set_neq by congruence. unfold sub1, half_sub. rewrite !get_del_neq by congruence. rewrite get_set_neq by congruence. apply get_set_eq. }
  assert (T6 : get (c0, v) sub3 = Some (sv sub c0 u)).
  { unfold sub3, sub2, half_sub. rewrite !get_del_neq, !get_set_neq by congruence. unfold sub1, half_sub. rewrite !get_del_neq by congruence. apply get_set_eq. }
  assert (T7 : forall p q, ~ (In p [u; v; c0; c1] /\ In q [u; v; c0; c1]) -> get (p, q) sub3 = get (p, q) sub).
  { intros p q N. assert (Ne : forall a b, In a [u; v; c0; c1] -> In b [u; v; c0; c1] -> (a, b) <> (p, q)) by (intros a b Ia Ib E; injection E as -> ->; tauto).
    unfold sub3, sub2, sub1, half_sub. repeat first [rewrite get_del_neq by (apply Ne; simpl; auto)|rewrite get_set_neq by (apply Ne; simpl; auto)]. auto. }
  assert (T8 : get (v, u) sub3 = None) by (unfold sub3; apply get_del_eq).
  assert (T9 : get (u, v) sub3 = None) by (unfold sub3; rewrite get_del_neq by congruence; apply get_del_eq).
  assert (Nk : forall p q, p = x \/ p = y \/ q = x \/ q = y -> ~ (In p [u; v; c0; c1] /\ In q [u; v; c0; c1])).
  { intros p q H. simpl. intuition congruence. }
  assert (T10 : get (u, x) sub3 = Some (sv sub u x)). { rewrite T7 by (apply Nk; auto). apply here_get. apply SK. auto. }
  assert (T11 : get (v, y) sub3 = Some (sv sub v y)). { rewrite T7 by (apply Nk; auto). apply here_get. apply SK. auto. }
  assert (Nn : n <= u /\ n <= v) by (split; apply V).
  destruct n0 as [f Ef].
  assert (PP1 : preprocess (2 * n) n (u_leaf t) adj2 sub3 v u = Ok (set (v, u) (sunion (sv sub v c1) (sv sub u x)) sub3, sunion (sv sub v c1) (sv sub u x))).
  { rewrite Ef. apply pre_two with (k0 := c1) (k1 := x); auto; try tauto. }
  set (sub4 := set (v, u) (sunion (sv sub v c1) (sv sub u x)) sub3) in *.
  assert (PP2 : preprocess (2 * n) n (u_leaf t) adj2 sub4 u v = Ok (set (u, v) (sunion (sv sub u c0) (sv sub v y)) sub4, sunion (sv sub u c0) (sv sub v y))).
  { rewrite Ef. apply pre_two with (k0 := c0) (k1 := y); auto; try tauto; unfold sub4; rewrite get_set_neq by congruence; auto. }
  set (sub5 := set (u, v) (sunion (sv sub u c0) (sv sub v y)) sub4) in *.
  assert (S1 : get (v, c0) sub5 = get (u, c0) sub). { unfold sub5, sub4. rewrite !get_set_neq by congruence. rewrite T5. symmetry. apply here_get, SK; auto. }
  assert (S2 : get (c0, v) sub5 = get (c0, u) sub). { unfold sub5, sub4. rewrite !get_set_neq by congruence. rewrite T6. symmetry. apply here_get, SK; auto. }
  assert (S3 : get (u, c1) sub5 = get (v, c1) sub). { unfold sub5, sub4. rewrite !get_set_neq by congruence. rewrite T3. symmetry. apply here_get, SK; auto. }
  assert (S4 : get (c1, u) sub5 = get (c1, v) sub). { unfold sub5, sub4. rewrite !get_set_neq by congruence. rewrite T4. symmetry. apply here_get, SK; auto. }
  assert (S5 : get (v, u) sub5 = Some (sunion (sv sub v c1) (sv sub u x))). { unfold sub5, sub4. rewrite get_set_neq by congruence. apply get_set_eq. }
  assert (S6 : get (u, v) sub5 = Some (sunion (sv sub u c0) (sv sub v y))). { unfold sub5. apply get_set_eq. }
  assert (S7 : forall p q, ~ (In p [u; v; c0; c1] /\ In q [u; v; c0; c1]) -> get (p, q) sub5 = get (p, q) sub).
  { intros p q N. assert (Ne : forall a b, In a [u; v; c0; c1] -> In b [u; v; c0; c1] -> (a, b) <> (p, q)) by (intros a b Ia Ib E; injection E as -> ->; tauto).
    unfold sub5, sub4. rewrite !get_set_neq by (apply Ne; simpl; auto). apply T7; auto. }
  assert (SK' : sub_ok n (u_leaf t) A' sub5) by (apply (@exch_sub n A A' C X D Y u v V Hu Hv Hc0 Hc1 Hz (u_leaf t) sub sub5 SK S1 S2 S3 S4 S5 S6 S7)).
  (* the root *)
  set (root1 := if same_pair (u_root t) (u, c0) then (v, c0) else u_root t).
  set (root2 := if same_pair root1 (v, c1) then (u, c1) else root1).
  destruct (g_view G) as (a & b & Vr & Er). fold n A in Vr. destruct (g_root G) as [Ra Rb]. rewrite <- Er in Ra, Rb. cbn [fst snd] in Ra, Rb.
  assert (Iab : In (uid b) (A (uid a))) by (destruct Vr as (H & _); now apply hang_in in H).
  assert (Iba : In (uid a) (A (uid b))) by (destruct Vr as (_ & H & _); now apply hang_in in H).
  set (ra := uid a) in *. set (rb := uid b) in *.
  assert (RT : (root2 = (ra, rb) /\ same_pair (ra, rb) (u, v) = true) \/
               (root2 = (ra, rb) /\ ~ bad C D u v ra rb /\ ~ bad C D u v rb ra /\ same_pair (ra, rb) (u, v) = false) \/
               (root2 = (v, c0) /\ ((ra = u /\ rb = c0) \/ (ra = c0 /\ rb = u))) \/
               (root2 = (u, c1) /\ ((ra = v /\ rb = c1) \/ (ra = c1 /\ rb = v)))).
  { unfold root2, root1. rewrite <- Er. fold ra rb.
    destruct (same_pair (ra, rb) (u, c0)) eqn:E1.
    - apply same_pair_iff in E1. right; right; left. split.
      + destruct (same_pair (v, c0) (v, c1)) eqn:E2; auto. apply same_pair_iff in E2. destruct E2 as [E2|E2]; injection E2; congruence.
      + simpl in E1. destruct E1 as [E1|E1]; injection E1 as -> ->; auto.
    - destruct (same_pair (ra, rb) (v, c1)) eqn:E2.
      + apply same_pair_iff in E2. right; right; right. split; auto. simpl in E2. destruct E2 as [E2|E2]; injection E2 as -> ->; auto.
      + destruct (same_pair (ra, rb) (u, v)) eqn:E3; auto. right; left. split; auto.
        assert (XX : forall p q, same_pair (ra, rb) (p, q) = false -> (ra, rb) <> (p, q) /\ (ra, rb) <> (q, p)).
        { intros p q E. split; intros Z; rewrite Z in E; [assert (W : same_pair (p, q) (p, q) = true) by (apply same_pair_iff; auto)|assert (W : same_pair (q, p) (p, q) = true) by (apply same_pair_iff; auto)]; congruence. }
        pose proof (XX _ _ E1) as [Y1 Y2]. pose proof (XX _ _ E2) as [Y3 Y4]. pose proof (XX _ _ E3) as [Y5 Y6].
        split; [|split; [|auto]]; unfold bad; fold c0 c1; simpl; clear - Y1 Y2 Y3 Y4 Y5 Y6; intuition congruence. }
  set (t3 := w_graph t adj2 par' root2 sub5).
  assert (HR : In (snd root2) (A' (fst root2)) /\ get (fst root2) par' = Some (snd root2) /\ get (snd root2) par' = Some (fst root2)).
  { destruct Puv as (U1 & U2 & U3 & U4 & U5). destruct RT as [(-> & E)|[(-> & B1 & B2 & E)|[(-> & E)|(-> & E)]]]; cbn [fst snd].
    - apply same_pair_iff in E. simpl in E. assert (W : get u (u_par t) = Some v /\ get v (u_par t) = Some u) by (destruct E as [E|E]; injection E as E1 E2; rewrite E1, E2 in *; auto).
      destruct (U1 W) as [W1 W2]. destruct E as [E|E]; injection E as -> ->; (split; [|auto]); [rewrite Hu|rewrite Hv]; simpl; auto.
    - split; [apply (keep_edge A' V Hu Hv Hc0 Hc1 Hz Iab B1)|].
      split; [apply (@keep_par n A C X D Y u v V (fun z => get z (u_par t)) (fun z => get z par') K Pz Pc0 Pc1 (conj U1 (conj U2 (conj U3 (conj U4 U5)))) ra rb Iab B1 Ra)
             |apply (@keep_par n A C X D Y u v V (fun z => get z (u_par t)) (fun z => get z par') K Pz Pc0 Pc1 (conj U1 (conj U2 (conj U3 (conj U4 U5)))) rb ra Iba B2 Rb)].
    - split; [rewrite Hv; simpl; auto|]. assert (W : get u (u_par t) = Some c0 /\ get c0 (u_par t) = Some u) by (destruct E as [[E1 E2]|[E1 E2]]; rewrite E1, E2 in *; auto).
      destruct W as [W1 W2]. assert (W3 : get v (u_par t) = Some u). { destruct (proj1 K u v) as [Z|Z]; [rewrite Eu; simpl; auto|congruence|auto]. }
      destruct (U4 (conj W1 W3)) as [_ W4]. split; auto. cbn beta in Pc0. rewrite Pc0, W2, Nat.eqb_refl. auto.
    - split; [rewrite Hu; simpl; auto|]. assert (W : get v (u_par t) = Some c1 /\ get c1 (u_par t) = Some v) by (destruct E as [[E1 E2]|[E1 E2]]; rewrite E1, E2 in *; auto).
      destruct W as [W1 W2]. assert (W3 : get u (u_par t) = Some v). { destruct (proj1 K u v) as [Z|Z]; [rewrite Eu; simpl; auto|auto|congruence]. }
      destruct (U2 (conj W3 W1)) as [W4 _]. split; auto. cbn beta in Pc1. rewrite Pc1, W2, Nat.eqb_refl. auto. }
  assert (G3 : gok t3).
  { split; cbn [t3 w_graph u_n u_adj u_root u_par u_sub u_leaf].
    - destruct (@reroot n A' _ _ (fst root2) (snd root2) V') as (a' & b' & Va & Ea & Eb & _); [apply HR|]. exists a', b'. split; auto. rewrite Ea, Eb. destruct root2; auto.
    - auto.
    - apply HR.
    - auto. }
  assert (AE : forall z, A' z <> [] <-> A z <> []).
  { assert (NE : forall (l : list nat) a r, Permutation l (a :: r) -> l <> []) by (intros l a' r Pm ->; apply Permutation_nil_cons in Pm; auto).
    intros z. destruct (Nat.eq_dec z u) as [->|Z1]; [split; intros _; eauto|]. destruct (Nat.eq_dec z v) as [->|Z2]; [split; intros _; eauto|].
    destruct (Nat.eq_dec z c0) as [->|Z3]; [split; intros _; eauto|]. destruct (Nat.eq_dec z c1) as [->|Z4]; [split; intros _; eauto|]. rewrite Hz; auto. tauto. }
  assert (C3 : csum t3).
  { destruct CS as [C1 C2 C3]. split; cbn [t3 w_graph u_ncost u_cost u_rcost]; auto. intros z Hk. apply C2 in Hk. unfold inner in *. cbn [t3 w_graph u_n u_adj]. fold A A' in Hk |- *. rewrite (AE z). tauto. }
  assert (NC3 : forall w, w <> u -> w <> v -> nc_at t3 w).
  { intros w Nu Nv p k0 k1 Ep Pm. cbn [t3 w_graph u_par u_adj u_ncost u_n u_open u_sub] in *. fold A' in Pm. fold n.
    destruct (@perm_rename _ _ _ _ _ _ (@rho_nbs n A A' C X D Y u v V Hc0 Hc1 Hz w Nu Nv) Pm) as (q & j0 & j1 & G1 & -> & -> & Pj).
    assert (Aw : A w <> []) by (intros E; rewrite E in Pj; apply Permutation_nil_cons in Pj; auto).
    destruct (proj2 K w Aw) as (q' & Eq & Iq). 
    pose proof (@rho_par n A C X D Y u v V (fun z => get z (u_par t)) (fun z => get z par') Pz Pc0 Pc1 w q' Nu Nv Iq Eq) as E2. cbn beta in E2. rewrite Ep in E2. injection E2 as E2.
    assert (q = q'). { apply (@rho_inj n A C X D Y u v V w q q' Nu Nv); auto; [rewrite Pj; simpl; auto|congruence]. } subst q'.
    rewrite (NC w q j0 j1 Eq Pj). f_equal. fold n sub.
    assert (SV : forall k, In k [q; j0; j1] -> sv sub5 w (rho C D u v w k) = sv sub w k /\ sv sub5 (rho C D u v w k) w = sv sub k w).
    { intros k Hk. apply (@rho_sv n A C X D Y u v V sub sub5 S1 S2 S3 S4 S7 w k Nu Nv). rewrite Pj. auto. }
    assert (LT : forall k, rho C D u v w k <? n = (k <? n)).
    { intros k. unfold rho. destruct ((w =? uid C) && (k =? u)) eqn:Z1.
      - apply andb_true_iff in Z1 as [_ Z1]. apply Nat.eqb_eq in Z1. rewrite Z1, !(proj2 (Nat.ltb_ge _ _)) by tauto. reflexivity.
      - destruct ((w =? uid D) && (k =? v)) eqn:Z2; auto. apply andb_true_iff in Z2 as [_ Z2]. apply Nat.eqb_eq in Z2. rewrite Z2, !(proj2 (Nat.ltb_ge _ _)) by tauto. reflexivity. }
    assert (OV : forall k, In k [q; j0; j1] -> ov n (u_open t) sub5 w (rho C D u v w k) = ov n (u_open t) sub w k /\ ov n (u_open t) sub5 (rho C D u v w k) w = ov n (u_open t) sub k w).
    { intros k Hk. destruct (SV k Hk) as [X1 X2]. unfold ov. rewrite LT, X1, X2. auto. }
    unfold ncv. rewrite G1. rewrite (proj1 (OV j0 ltac:(simpl; auto))), (proj1 (OV j1 ltac:(simpl; auto))), (proj2 (OV q ltac:(simpl; auto))). reflexivity. }
  assert (RC3 : same_pair root2 (u, v) = false -> rc_ok t3).
  { intros E. unfold rc_ok in *. cbn [t3 w_graph u_rcost u_n u_open u_sub u_root]. fold n sub in RC |- *. rewrite RC, <- Er. fold ra rb. cbn [fst snd].
    assert (OB : forall p q, In q (A p) -> In p (A q) -> ~ bad C D u v p q -> ~ bad C D u v q p -> ov n (u_open t) sub5 p q = ov n (u_open t) sub p q).
    { intros p q I1 I2 B1 B2. unfold ov, sv. rewrite (@keep_get n A C X D Y u v V sub sub5 S7 p q I1 B1), (@keep_get n A C X D Y u v V sub sub5 S7 q p I2 B2). auto. }
    destruct RT as [(E1 & E2)|[(-> & B1 & B2 & _)|[(-> & E2)|(-> & E2)]]]; cbn [fst snd].
    - rewrite E1 in E. congruence.
    - rewrite !OB; auto.
    - assert (O1 : ov n (u_open t) sub5 v c0 = ov n (u_open t) sub u c0) by (unfold ov, sv; rewrite S1, S2; auto).
      assert (O2 : ov n (u_open t) sub5 c0 v = ov n (u_open t) sub c0 u) by (unfold ov, sv; rewrite S1, S2, !(proj2 (Nat.ltb_ge _ _)) by tauto; auto).
      rewrite O1, O2. destruct E2 as [[-> ->]|[-> ->]]; auto using pair_cost_comm.
    - assert (O1 : ov n (u_open t) sub5 u c1 = ov n (u_open t) sub v c1) by (unfold ov, sv; rewrite S3, S4; auto).
      assert (O2 : ov n (u_open t) sub5 c1 u = ov n (u_open t) sub c1 v) by (unfold ov, sv; rewrite S3, S4, !(proj2 (Nat.ltb_ge _ _)) by tauto; auto).
      rewrite O1, O2. destruct E2 as [[-> ->]|[-> ->]]; auto using pair_cost_comm. }
  (* running the code *)
  assert (Run : switch_edges t u c0 v c1 = do t4 <- compute_node_cost t3 v; do t5 <- compute_node_cost t4 u; if same_pair (u_root t5) (u, v) then compute_root_cost t5 else Ok t5).
  { unfold switch_edges, switch_half. rewrite !edge_sub_here by (apply SK; auto). cbn [bind w_graph u_sub u_adj u_par u_root u_n u_leaf].
    fold sub. fold (half_sub sub u c0 v (sv sub u c0) (sv sub c0 u)). fold sub1. fold adj1. fold root1.
    unfold edge_sub at 1 2. rewrite T1, T2, !here_get by (apply SK; auto). cbn [bind w_graph u_sub u_adj u_par u_root u_n u_leaf].
    fold (half_sub sub1 v c1 u (sv sub v c1) (sv sub c1 v)). fold sub2. fold sub3. fold adj2. fold root2. fold n.
    rewrite PP1. cbn [bind fst snd]. rewrite PP2. cbn [bind fst snd]. reflexivity. }
  rewrite Run.
  assert (Iv : inner t3 v). { split; [apply Nn|]. cbn [t3 w_graph u_adj]. fold A'. intros E. rewrite E in Hv. apply Permutation_nil_cons in Hv. auto. }
  destruct (compute_node_cost_ok G3 C3 Iv) as (t4 & cv & E4 & F4 & C4 & NC4). rewrite E4. cbn [bind].
  assert (G4 : gok t4) by (rewrite F4; now apply gok_cost).
  assert (Iu : inner t4 u). { rewrite F4. split; [apply Nn|]. cbn [t3 w_cost w_graph u_adj]. fold A'. intros E. rewrite E in Hu. apply Permutation_nil_cons in Hu. auto. }
  destruct (compute_node_cost_ok G4 C4 Iu) as (t5 & cu & E5 & F5 & C5 & NC5). rewrite E5. cbn [bind].
  assert (G5 : gok t5) by (rewrite F5; now apply gok_cost).
  assert (NC4' : forall w, w <> u -> nc_at t4 w).
  { intros w Nw. destruct (Nat.eq_dec w v) as [->|Nv]; auto. rewrite F4. eapply nc_set; [reflexivity|auto|]. auto. }
  assert (NC5' : forall w, nc_at t5 w).
  { intros w. destruct (Nat.eq_dec w u) as [->|Nu]; auto. rewrite F5. eapply nc_set; [reflexivity|auto|]. auto. }
  assert (F35 : u_adj t5 = adj2 /\ u_root t5 = root2 /\ same_frame t t5 /\ u_rcost t5 = u_rcost t3 /\ u_sub t5 = sub5).
  { rewrite F5, F4. repeat split. }
  destruct F35 as (Fa & Fr & Ff & Frc & Fs). rewrite Fr. destruct (same_pair root2 (u, v)) eqn:Es.
  - destruct (compute_root_cost_ok G5 C5) as (t6 & E6 & F6 & C6 & R6). exists t6. split; auto. split; [split; auto|].
    + rewrite F6. now apply gok_cost.
    + intros w p k0 k1 Ep Pm. rewrite F6 in Ep, Pm |- *. cbn [w_cost u_ncost u_n u_open u_sub u_par u_adj] in *. apply NC5'; auto.
    + rewrite F6. cbn [w_cost u_adj]. rewrite Fa. split; auto.
  - exists t5. split; auto. split; [split; auto|].
    + unfold rc_ok. rewrite Frc, Fr, Fs. destruct Ff as (-> & -> & _). apply RC3. auto.
    + rewrite Fa. split; auto.
Qed.
