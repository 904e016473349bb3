(** * histories of calls on the tree *)
From Coq Require Import List Arith ZArith Lia Bool Permutation Sorted.
From Verif Require Import Base PathSpec UctSpec ModelOrder ModelPath ModelOpt PathProofs OptProofs DPProofs DPProofs2 ModelUct UctProofs UctPath UctSwitch UctSwitch2 UctSwitch3 UctInit UctInit2 UctOps.
Import ListNotations.
Set Implicit Arguments.
Open Scope nat_scope.

(** the arguments a call may be given: nodes joined as the call expects, positions inside the stem *)
Definition on_stem (stem : list nat) (x y : nat) : Prop := exists s1 s2, stem = s1 ++ x :: y :: s2 \/ stem = s1 ++ y :: x :: s2.
Definition allowed (t : uct) (stem : list nat) (o : uop) : Prop :=
  let A := nbs (u_adj t) in
  match o with
  | UExchange u c0 v c1 => In c0 (A u) /\ In v (A u) /\ In c1 (A v) /\ c0 <> v /\ c1 <> u /\ ~ on_stem stem u c0 /\ ~ on_stem stem v c1
  | UStep u v => (u = fst (u_root t) \/ u = snd (u_root t)) /\ u_n t <= u /\ In v (A u)
  | UBranches i | UMerge i => 1 <= i /\ i + 2 < length stem
  | UUnmerge i c =>
      exists s1 t0 u t1 s2 v, stem = s1 ++ t0 :: u :: t1 :: s2 /\ i = S (length s1) /\
        In v (A u) /\ v <> t0 /\ v <> t1 /\ u_n t <= v /\ match c with Some c => In c (A v) /\ c <> u | None => True end
  end.
(** the trees and stems that calls can produce from the path [p] of the equation [lhs] -> [rhs] *)
Inductive reach (lhs : list (list nat)) (rhs : list nat) (p : lpath) : uct * list nat -> Prop :=
| reach_init t stem : uct_init lhs rhs p = Ok t -> simple_path (nbs (u_adj t)) stem -> reach lhs rhs p (t, stem)
| reach_op t stem o st : reach lhs rhs p (t, stem) -> allowed t stem o -> do_uop (t, stem) o = Ok st -> reach lhs rhs p st.

Lemma split_at (l : list nat) k m : k + m <= length l -> exists s1 mid s2, l = s1 ++ mid ++ s2 /\ length s1 = k /\ length mid = m.
Proof.
  intros H. exists (firstn k l), (firstn m (skipn k l)), (skipn m (skipn k l)). rewrite firstn_skipn, firstn_skipn. split; auto.
  rewrite !firstn_length, skipn_length. lia.
Qed.
Lemma op_ok t stem o : uok t -> simple_path (nbs (u_adj t)) stem -> allowed t stem o ->
  exists t' stem', do_uop (t, stem) o = Ok (t', stem') /\ uok t' /\ same_frame t t' /\ simple_path (nbs (u_adj t')) stem'.
Proof.
  intros U S H. destruct o as [u c0 v c1|u v|i|i|i c]; cbn [allowed do_uop] in *.
  - destruct H as (H0 & Hv & H1 & N0 & N1 & O0 & O1). destruct (@switch_path t u c0 v c1 U H0 Hv H1 N0 N1) as (t' & E & U' & F & X & _).
    exists t', stem. rewrite E. split; auto. split; auto. split; auto. destruct S as [ND S]. split; auto. intros s1 x y s2 Es. apply X. right; right. split; [eapply S; eauto|].
    split; intros [[-> ->]|[-> ->]]; [apply O0|apply O0|apply O1|apply O1]; exists s1, s2; auto.
  - destruct H as (Hu & Lu & Hv). destruct (@step_ok t u v U Hu Hv Lu) as (t' & E & U' & F & EA & _). exists t', stem. rewrite E, EA. auto.
  - destruct H as [H1 H2]. destruct (@split_at stem (i - 1) 4) as (s1 & m & s2 & -> & L1 & L2); [lia|]. destruct m as [|t0 [|u [|v [|t1 [|]]]]]; try discriminate. simpl app in *.
    destruct (@branches_ok t U s1 t0 u v t1 s2 S) as (t' & c0 & c1 & E & U' & F & S' & _). replace (Datatypes.S (length s1)) with i in E by lia. rewrite E. eauto 10.
  - destruct H as [H1 H2]. destruct (@split_at stem (i - 1) 4) as (s1 & m & s2 & -> & L1 & L2); [lia|]. destruct m as [|t0 [|u [|v [|t1 [|]]]]]; try discriminate. simpl app in *.
    destruct (@merge_ok t U s1 t0 u v t1 s2 S) as (t' & c0 & E & U' & F & S' & _). replace (Datatypes.S (length s1)) with i in E by lia. rewrite E. simpl. eauto 10.
  - destruct H as (s1 & t0 & u & t1 & s2 & v & -> & -> & Hv & N0 & N1 & Lv & Hc).
    destruct (@unmerge_ok t U s1 t0 u t1 s2 v c S Hv N0 N1 Lv Hc) as (t' & c' & E & U' & F & S' & _). rewrite E. eauto 10.
Qed.

Section Reach.
  Variables (lhs : list (list nat)) (rhs : list nat) (p : lpath).
  Hypothesis L2 : 2 <= length lhs.
  Hypothesis VP : valid_lin (length lhs) p.
  Hypothesis PW : pairwise p.
  Definition framed (t : uct) : Prop := u_n t = length lhs /\ u_open t = mkset rhs /\ u_leaf t = map mkset lhs.
  Lemma reach_ok st : reach lhs rhs p st -> uok (fst st) /\ framed (fst st) /\ simple_path (nbs (u_adj (fst st))) (snd st).
  Proof.
    induction 1 as [t stem E S|t stem o st R IH H E].
    - destruct (@init_ok lhs rhs p L2 VP PW) as (t' & a & b & T & E' & U & F1 & F2 & F3 & _). rewrite E in E'. inversion E'; subst. simpl. unfold framed. auto.
    - cbn [fst snd] in IH. destruct IH as (U & F & S). destruct (@op_ok _ _ _ U S H) as (t' & stem' & E' & U' & F' & S'). rewrite E in E'. inversion E'; subst. cbn [fst snd]. split; auto. split; auto.
      destruct F as (F1 & F2 & F3), F' as (G1 & G2 & G3). unfold framed. rewrite G1, G2, G3. auto.
  Qed.
  Lemma uok_path t : uok t -> exists q T, get_path t = Ok q /\ valid_lin (u_n t) q /\ pairwise q /\ lin_tree (u_n t) q = Some T /\
    seen_from (u_n t) (nbs (u_adj t)) (fst (u_root t)) (snd (u_root t)) T /\
    exists a b, view (u_n t) (nbs (u_adj t)) a b /\ (uid a, uid b) = u_root t /\ swapped (vshape a b) T.
  Proof.
    intros U. destruct (g_view (k_graph U)) as (a & b & V & R). destruct (g_root (k_graph U)) as [R1 R2]. rewrite <- R in R1, R2. cbn [fst snd] in R1, R2.
    destruct (@get_path_ok t a b V R (g_par (k_graph U)) R1 R2) as (q & T & E & Q1 & Q2 & Q3 & Q4). exists q, T. rewrite <- R. cbn [fst snd].
    split; auto. split; auto. split; auto. split; auto. split; [apply view_seen; auto|]. exists a, b. auto.
  Qed.
End Reach.

(** walking the root to any edge *)
Inductive walk : uct -> uct -> Prop :=
| walk_nil t : walk t t
| walk_step t u v t' t'' : u_n t <= u -> In v (nbs (u_adj t) u) -> step_root t u v = Ok t' -> walk t' t'' -> walk t t''.
Lemma walk_in a : forall b t x y, uok t -> view (u_n t) (nbs (u_adj t)) a b -> u_root t = (uid a, uid b) \/ u_root t = (uid b, uid a) ->
  In x (ids a) -> In y (nbs (u_adj t) x) -> exists t', walk t t' /\ uok t' /\ u_adj t' = u_adj t /\ same_frame t t' /\ (u_root t' = (x, y) \/ u_root t' = (y, x)).
Proof.
  assert (F0 : forall t, same_frame t t) by (intros; unfold same_frame; auto).
  induction a as [i|v l IHl r IHr]; intros b t x y U V R Hx Hy.
  - destruct Hx as [<-|[]]. pose proof V as ((_ & E) & _). rewrite E in Hy. destruct Hy as [<-|[]]. exists t. split; [constructor|]. split; [exact U|]. split; [auto|]. split; [apply F0|exact R].
  - cbn [uid] in R. assert (G : forall l r, (forall b t x y, uok t -> view (u_n t) (nbs (u_adj t)) l b -> u_root t = (uid l, uid b) \/ u_root t = (uid b, uid l) ->
                 In x (ids l) -> In y (nbs (u_adj t) x) -> exists t', walk t t' /\ uok t' /\ u_adj t' = u_adj t /\ same_frame t t' /\ (u_root t' = (x, y) \/ u_root t' = (y, x))) ->
               view (u_n t) (nbs (u_adj t)) (UN v l r) b -> In x (ids l) \/ (x = v /\ y = uid l) ->
               exists t', walk t t' /\ uok t' /\ u_adj t' = u_adj t /\ same_frame t t' /\ (u_root t' = (x, y) \/ u_root t' = (y, x))).
    { clear l r IHl IHr V Hx. intros l r IH V Hx. pose proof V as ((Lv & P & _) & _). cbn [uid] in *.
      assert (Il : In (uid l) (nbs (u_adj t) v)) by (rewrite P; simpl; auto).
      destruct (@step_ok t v (uid l) U) as (t1 & E1 & U1 & F1 & A1 & R1); auto. { destruct R as [-> | ->]; auto. }
      destruct Hx as [Hx|[-> ->]].
      - destruct (IH (UN v r b) t1 x y U1) as (t2 & W & U2 & A2 & F2 & R2); auto.
        + rewrite A1. replace (u_n t1) with (u_n t) by (symmetry; apply F1). apply view_down; auto.
        + now rewrite A1.
        + exists t2. split; [eapply walk_step; eauto|]. split; auto. split; [congruence|]. split; auto. eapply same_frame_trans; eauto.
      - exists t1. split; [eapply walk_step; eauto; constructor|]. auto. }
    simpl in Hx. destruct Hx as [<-|Hx].
    + pose proof V as ((_ & P & _) & _). rewrite P in Hy. simpl in Hy. destruct Hy as [<-|[<-|[<-|[]]]].
      * exists t. split; [constructor|]. split; [exact U|]. split; [auto|]. split; [apply F0|exact R].
      * apply (G l r); auto.
      * apply (G r l); auto. now apply view_swap.
    + apply in_app_iff in Hx as [Hx|Hx]; [apply (G l r); auto|apply (G r l); auto; now apply view_swap].
Qed.
Lemma walk_to t x y : uok t -> In y (nbs (u_adj t) x) ->
  exists t', walk t t' /\ uok t' /\ u_adj t' = u_adj t /\ same_frame t t' /\ (u_root t' = (x, y) \/ u_root t' = (y, x)).
Proof.
  intros U Hy. destruct (g_view (k_graph U)) as (a & b & V & R).
  assert (Hx : In x (ids a ++ ids b)) by (apply V; intros E; rewrite E in Hy; destruct Hy).
  apply in_app_iff in Hx as [Hx|Hx]; [apply (@walk_in a b t x y U V); auto|apply (@walk_in b a t x y U (view_sym V)); auto].
Qed.

(** undoing a merge *)
Lemma merge_unmerge t s1 t0 u v t1 s2 : let stem := s1 ++ t0 :: u :: v :: t1 :: s2 in uok t -> simple_path (nbs (u_adj t)) stem ->
  exists t' stem' c0 t'', merge_branches t stem (S (length s1)) = Ok (t', stem', c0) /\ unmerge_branches t' stem' (S (length s1)) (Some c0) = Ok (t'', stem) /\
    (forall x y, In y (nbs (u_adj t'') x) <-> In y (nbs (u_adj t) x)).
Proof.
  intros stem U SP. destruct (g_view (k_graph U)) as (a & b & V & _).
  destruct (@four t U s1 t0 u v t1 s2 SP) as (_ & _ & _ & _ & _ & Hv & Hu & I1 & N1 & _).
  destruct (@merge_ok t U s1 t0 u v t1 s2 SP) as (t' & c0 & E & U' & F & SP' & X & I0 & O0).
  exists t', (s1 ++ t0 :: u :: t1 :: s2), c0.
  assert (Sym : forall x y, In y (nbs (u_adj t) x) -> In x (nbs (u_adj t) y)) by (intros x y Hxy; apply (@view_edge _ _ _ _ x y V Hxy)).
  assert (ND : NoDup (t0 :: u :: v :: t1 :: s2)) by (destruct SP as [ND _]; apply NoDup_app_iff in ND; tauto).
  inversion ND as [|? ? M1 ND2]; subst. inversion ND2 as [|? ? M2 ND3]; subst. inversion ND3 as [|? ? M3 _]; subst. simpl in M1, M2, M3.
  assert (Ncv : c0 <> v) by (intros ->; apply O0; apply in_app_iff; simpl; auto 10).
  assert (Nct : c0 <> t1) by (intros ->; apply O0; apply in_app_iff; simpl; auto 10).
  assert (Ncu : c0 <> u) by (intros ->; apply O0; apply in_app_iff; simpl; auto 10).
  assert (Xv : In v (nbs (u_adj t') u)). { apply X. right; right. split; auto. unfold same_edge. split; intros [[? ?]|[? ?]]; subst; tauto. }
  assert (Xc : In c0 (nbs (u_adj t') v)). { apply X. right; left. left. auto. }
  assert (Lv : u_n t' <= v).
  { destruct F as (-> & _). destruct (@third_ok _ (nbs (u_adj t)) (u_adj t) a b v u t1 V eq_refl) as (c & _ & L & _); auto. }
  destruct (@unmerge_ok t' U' s1 t0 u t1 s2 v (Some c0) SP') as (t'' & c & E2 & U'' & F2 & SP2 & X2 & Ic & Nc & Dc); auto; try (intros ->; tauto).
  specialize (Dc c0 eq_refl). subst c. exists t''. split; auto. split; auto. intros x y. rewrite (X2 x y), (X x y).
  assert (T1 : ~ In t1 (nbs (u_adj t) u)). { intros H. apply (@triangle _ _ _ _ u v t1 V); auto. }
  assert (T2 : ~ In c0 (nbs (u_adj t) v)). { intros H. apply (@triangle _ _ _ _ u v c0 V); auto. }
  assert (K1 : In y (nbs (u_adj t) x) -> ~ same_edge x y u t1 /\ ~ same_edge x y v c0).
  { intros H. unfold same_edge. split; intros [[-> ->]|[-> ->]]; auto; apply Sym in H; auto. }
  assert (K2 : same_edge x y u c0 -> In y (nbs (u_adj t) x)) by (intros [[-> ->]|[-> ->]]; auto).
  assert (K3 : same_edge x y v t1 -> In y (nbs (u_adj t) x)) by (intros [[-> ->]|[-> ->]]; auto).
  assert (D1 : same_edge x y u c0 \/ ~ same_edge x y u c0) by (unfold same_edge; destruct (Nat.eq_dec x u), (Nat.eq_dec y c0), (Nat.eq_dec x c0), (Nat.eq_dec y u); tauto).
  assert (D2 : same_edge x y v t1 \/ ~ same_edge x y v t1) by (unfold same_edge; destruct (Nat.eq_dec x v), (Nat.eq_dec y t1), (Nat.eq_dec x t1), (Nat.eq_dec y v); tauto).
  tauto.
Qed.

(** ** two views of the same graph *)
Lemma swapped_trans a b : swapped a b -> forall c, swapped b c -> swapped a c.
Proof.
  induction 1 as [i|x y x' y' Sx IHx Sy IHy|x y x' y' Sx IHx Sy IHy]; intros c S; inversion S; subst; auto.
  - apply sw_keep; auto.
  - apply sw_swap; auto.
  - apply sw_swap; auto.
  - apply sw_keep; auto.
Qed.
Lemma hang_unique n A s : forall p s', hang n A p s -> hang n A p s' -> uid s = uid s' -> NoDup (A (uid s)) -> (forall x, NoDup (A x)) -> swapped (shape s) (shape s').
Proof.
  induction s as [i|v l IHl r IHr]; intros p s' H H' E _ ND; destruct s' as [i'|v' l' r']; cbn [uid] in E; subst.
  - apply sw_leaf.
  - destruct H, H'. lia.
  - destruct H, H'. lia.
  - destruct H as (_ & P & Hl & Hr), H' as (_ & P' & Hl' & Hr'). rewrite P in P'. apply Permutation_cons_inv in P'.
    pose proof (ND v') as N. rewrite P in N. inversion N as [|? ? _ N2]; subst. inversion N2 as [|? ? N3 _]; subst.
    assert (C : (uid l = uid l' /\ uid r = uid r') \/ (uid l = uid r' /\ uid r = uid l')).
    { apply Permutation_length_2 in P' as [[-> ->]|[-> ->]]; auto. }
    cbn [shape]. destruct C as [[E1 E2]|[E1 E2]]; [apply sw_keep|apply sw_swap]; eauto.
Qed.
Lemma view_rerooted n A a b a' b' : view n A a b -> view n A a' b' -> rerooted (vshape a b) (vshape a' b').
Proof.
  intros V V'. assert (I : In (uid b') (A (uid a'))) by (destruct V' as (H & _); now apply hang_in in H).
  destruct (@reroot n A a b _ _ V I) as (a1 & b1 & V1 & Ea & Eb & R). eapply rr_trans; [exact R|]. apply rr_swap.
  assert (ND : forall x, NoDup (A x)) by (intros x; eapply view_NoDup; eauto).
  destruct V1 as (H1 & H2 & _), V' as (H1' & H2' & _). rewrite Eb in H1. rewrite Ea in H2. apply sw_keep; eapply hang_unique; eauto.
Qed.
