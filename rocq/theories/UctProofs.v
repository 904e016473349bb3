(** * The graph of an undirected contraction tree: views from an edge, re-rooting, exchanging two edges *)
From Coq Require Import List Arith ZArith Lia Bool Permutation Sorted.
From Verif Require Import Base PathSpec UctSpec ModelOrder ModelPath ModelOpt PathProofs OptProofs DPProofs DPProofs2 ModelUct.
Import ListNotations.
Set Implicit Arguments.

Inductive ut : Type := UL (i : nat) | UN (v : nat) (l r : ut).
Definition uid (t : ut) : nat := match t with UL i => i | UN v _ _ => v end.
Fixpoint ids (t : ut) : list nat := match t with UL i => [i] | UN v l r => v :: ids l ++ ids r end.
Fixpoint lvs (t : ut) : list nat := match t with UL i => [i] | UN _ l r => lvs l ++ lvs r end.
Fixpoint shape (t : ut) : ptree := match t with UL i => PLeaf i | UN _ l r => PNode [shape l; shape r] end.

Section Views.
Variable n : nat.
Notation graph := (nat -> list nat) (only parsing).

(** the subtree [t] hangs from [p] *)
Fixpoint hang (A : graph) (p : nat) (t : ut) : Prop :=
  match t with
  | UL i => i < n /\ A i = [p]
  | UN v l r => n <= v /\ Permutation (A v) [p; uid l; uid r] /\ hang A v l /\ hang A v r
  end.
(** the whole graph seen from an edge *)
Definition view (A : graph) (a b : ut) : Prop :=
  hang A (uid b) a /\ hang A (uid a) b /\ NoDup (ids a ++ ids b) /\
  (forall x, A x <> [] -> In x (ids a ++ ids b)) /\ Permutation (lvs a ++ lvs b) (seq 0 n).

Lemma uid_in t : In (uid t) (ids t).
Proof. destruct t; simpl; auto. Qed.
Lemma view_sym A a b : view A a b -> view A b a.
Proof.
  intros (H1 & H2 & H3 & H4 & H5). repeat split; auto.
  - eapply Permutation_NoDup; [apply Permutation_app_comm|auto].
  - intros x Hx. specialize (H4 x Hx). rewrite in_app_iff in *. tauto.
  - rewrite Permutation_app_comm. auto.
Qed.
Lemma hang_swap A p v l r : hang A p (UN v l r) -> hang A p (UN v r l).
Proof. simpl. intros (H1 & H2 & H3 & H4). repeat split; auto. rewrite H2. apply perm_skip, perm_swap. Qed.
Lemma view_ids A a b a' b' : view A a b -> hang A (uid b') a' -> hang A (uid a') b' ->
  Permutation (ids a ++ ids b) (ids a' ++ ids b') -> Permutation (lvs a ++ lvs b) (lvs a' ++ lvs b') -> view A a' b'.
Proof.
  intros (H1 & H2 & H3 & H4 & H5) Ha Hb P Q. repeat split; auto.
  - now rewrite <- P.
  - intros x Hx. rewrite <- P. auto.
  - now rewrite <- Q.
Qed.
(** moving to a child edge *)
Lemma view_down A v l r b : view A (UN v l r) b -> view A l (UN v r b).
Proof.
  intros V. pose proof V as ((N & P & Hl & Hr) & Hb & ND & _).
  eapply view_ids; eauto.
  - simpl. repeat split; auto. rewrite P. rewrite (perm_swap (uid l)). apply perm_skip. apply perm_swap.
  - cbn [ids]. simpl. rewrite <- !app_assoc. apply (Permutation_middle (ids l) (ids r ++ ids b) v).
  - simpl. now rewrite <- app_assoc.
Qed.
Lemma view_swap A v l r b : view A (UN v l r) b -> view A (UN v r l) b.
Proof.
  intros V. pose proof V as (H & Hb & _). eapply view_ids; eauto.
  - now apply hang_swap.
  - simpl. apply perm_skip. apply Permutation_app_tail. apply Permutation_app_comm.
  - simpl. apply Permutation_app_tail. apply Permutation_app_comm.
Qed.
Lemma view_nodup_neq A a b : view A a b -> uid a <> uid b.
Proof.
  intros (_ & _ & ND & _) E. apply NoDup_app_iff in ND as (_ & _ & D). apply (D (uid a)); [apply uid_in|rewrite E; apply uid_in].
Qed.

(** the graph can be seen from every edge; the shape seen is the same unrooted tree *)
Definition vshape (a b : ut) : ptree := PNode [shape a; shape b].
Lemma swapped_shape t : swapped (shape t) (shape t).
Proof. induction t; simpl; constructor; auto. Qed.
Lemma swapped_sym x y : swapped x y -> swapped y x.
Proof. induction 1; [apply sw_leaf|apply sw_keep; auto|apply sw_swap; auto]. Qed.
Lemma rerooted_sym x y : rerooted x y -> rerooted y x.
Proof.
  induction 1; [apply rr_swap; now apply swapped_sym|apply rr_back|apply rr_move|eapply rr_trans; eauto].
Qed.
Lemma rr_flip a b : rerooted (vshape a b) (vshape b a).
Proof. apply rr_swap. apply sw_swap; apply swapped_shape. Qed.
Lemma rr_refl a b : rerooted (vshape a b) (vshape a b).
Proof. apply rr_swap. apply sw_keep; apply swapped_shape. Qed.
Lemma rr_child v l r b : rerooted (vshape (UN v l r) b) (vshape (UN v r l) b).
Proof. apply rr_swap. apply sw_keep; [apply sw_swap|]; apply swapped_shape. Qed.

Lemma reroot_in A x y a : forall b, view A a b -> In x (ids a) -> In y (A x) ->
  exists a' b', view A a' b' /\ uid a' = x /\ uid b' = y /\ rerooted (vshape a b) (vshape a' b').
Proof.
  induction a as [i|v l IHl r IHr]; intros b V Hx Hy.
  - destruct Hx as [<-|[]]. pose proof V as ((_ & E) & _). rewrite E in Hy. destruct Hy as [<-|[]].
    exists (UL i), b. split; [auto|]. split; [auto|]. split; [auto|]. apply rr_refl.
  - assert (Vl : view A l (UN v r b)) by now apply view_down.
    assert (Vr : view A r (UN v l b)) by now apply view_down, view_swap.
    assert (Rl : rerooted (vshape (UN v l r) b) (vshape l (UN v r b))) by apply rr_move.
    assert (Rr : rerooted (vshape (UN v l r) b) (vshape r (UN v l b))).
    { eapply rr_trans; [apply rr_child|]. apply rr_move. }
    simpl in Hx. rewrite in_app_iff in Hx. destruct Hx as [<-|[Hx|Hx]].
    + pose proof V as ((_ & P & _) & _). rewrite P in Hy. destruct Hy as [<-|[<-|[<-|[]]]].
      * exists (UN v l r), b. repeat split; auto; try apply V. apply rr_refl.
      * exists (UN v r b), l. split; [now apply view_sym|]. repeat split; auto. eapply rr_trans; [apply Rl|]. apply rr_flip.
      * exists (UN v l b), r. split; [now apply view_sym|]. repeat split; auto. eapply rr_trans; [apply Rr|]. apply rr_flip.
    + destruct (IHl _ Vl Hx Hy) as (a' & b' & V' & E1 & E2 & R). exists a', b'. repeat split; auto; try apply V'.
      eapply rr_trans; [apply Rl|auto].
    + destruct (IHr _ Vr Hx Hy) as (a' & b' & V' & E1 & E2 & R). exists a', b'. repeat split; auto; try apply V'.
      eapply rr_trans; [apply Rr|auto].
Qed.
Lemma reroot A a b x y : view A a b -> In y (A x) ->
  exists a' b', view A a' b' /\ uid a' = x /\ uid b' = y /\ rerooted (vshape a b) (vshape a' b').
Proof.
  intros V Hy. assert (Hx : In x (ids a ++ ids b)). { apply V. intros E. rewrite E in Hy. destruct Hy. }
  apply in_app_iff in Hx as [Hx|Hx]; [apply reroot_in; auto|].
  destruct (@reroot_in A x y b a (view_sym V) Hx Hy) as (a' & b' & V' & E1 & E2 & R). exists a', b'. repeat split; auto; try apply V'.
  eapply rr_trans; [apply rr_flip|auto].
Qed.
(** the node seen at the near end, when it has another neighbour [c] *)
Lemma view_node A a b c : view A a b -> In c (A (uid a)) -> c <> uid b ->
  exists l r, uid l = c /\ view A (UN (uid a) l r) b /\ rerooted (vshape a b) (vshape (UN (uid a) l r) b).
Proof.
  intros V Hc Nc. destruct a as [i|v l r]; simpl in Hc.
  - pose proof V as ((_ & E) & _). rewrite E in Hc. destruct Hc as [Hc|[]]. congruence.
  - pose proof V as ((_ & P & _) & _). rewrite P in Hc. destruct Hc as [Hc|[Hc|[Hc|[]]]]; [congruence| |].
    + exists l, r. repeat split; auto; try apply V. apply rr_refl.
    + exists r, l. split; auto. split; [now apply view_swap|]. apply rr_child.
Qed.

(** exchanging two edges *)
Lemma hang_ext A A' t : forall p, (forall x, In x (ids t) -> A' x = A x) -> hang A p t -> hang A' p t.
Proof.
  induction t as [i|v l IHl r IHr]; simpl; intros p E H.
  - destruct H. split; auto. rewrite E; auto.
  - destruct H as (H1 & H2 & H3 & H4). repeat split; auto.
    + rewrite E; auto.
    + apply IHl; auto. intros x Hx. apply E. right. apply in_app_iff. auto.
    + apply IHr; auto. intros x Hx. apply E. right. apply in_app_iff. auto.
Qed.
(** the top of a hanging subtree: its neighbours are [p] and these *)
Definition kids (t : ut) : list nat := match t with UL _ => [] | UN _ l r => [uid l; uid r] end.
Lemma hang_top A p t : hang A p t -> Permutation (A (uid t)) (p :: kids t).
Proof. destruct t; simpl; intros H; [destruct H as [_ ->]; auto|apply H]. Qed.
Lemma hang_move A A' p q t : (forall x, In x (ids t) -> x <> uid t -> A' x = A x) -> NoDup (ids t) ->
  Permutation (A' (uid t)) (q :: kids t) -> hang A p t -> hang A' q t.
Proof.
  destruct t as [i|v l r]; simpl; intros E ND P H.
  - destruct H. split; auto. now apply Permutation_sym, Permutation_length_1_inv in P.
  - destruct H as (H1 & H2 & H3 & H4). inversion ND as [|? ? Nv ND']; subst. repeat split; auto.
    + apply hang_ext with (A := A); auto. intros z Hz. apply E; [right; apply in_app_iff; auto|]. intros ->. apply Nv, in_app_iff. auto.
    + apply hang_ext with (A := A); auto. intros z Hz. apply E; [right; apply in_app_iff; auto|]. intros ->. apply Nv, in_app_iff. auto.
Qed.
Lemma view_switch A A' u v c x d y : view A (UN u c x) (UN v d y) ->
  Permutation (A' u) [v; uid d; uid x] -> Permutation (A' v) [u; uid c; uid y] ->
  Permutation (A' (uid c)) (v :: kids c) -> Permutation (A' (uid d)) (u :: kids d) ->
  (forall z, z <> u -> z <> v -> z <> uid c -> z <> uid d -> A' z = A z) ->
  view A' (UN u d x) (UN v c y).
Proof.
  intros V Pu Pv Pc Pd E. pose proof V as ((N1 & P1 & Hc & Hx) & (N2 & P2 & Hd & Hy) & ND & Cov & Lv).
  assert (P : Permutation (ids (UN u c x) ++ ids (UN v d y)) (ids (UN u d x) ++ ids (UN v c y))).
  { simpl. apply perm_skip. rewrite <- !Permutation_middle. apply perm_skip.
    rewrite (Permutation_app_comm (ids c) (ids x)), (Permutation_app_comm (ids d) (ids x)), <- !app_assoc.
    apply Permutation_app_head. rewrite !app_assoc. apply Permutation_app_tail. apply Permutation_app_comm. }
  assert (ND2 : NoDup ([u; v] ++ ids c ++ ids x ++ ids d ++ ids y)).
  { eapply Permutation_NoDup; [|apply ND]. simpl. apply perm_skip. rewrite <- Permutation_middle. apply perm_skip. now rewrite <- !app_assoc. }
  apply NoDup_app_iff in ND2 as (Nuv & ND2 & D1).
  apply NoDup_app_iff in ND2 as (Nc & ND2 & D2).
  apply NoDup_app_iff in ND2 as (Nx & ND2 & D3).
  apply NoDup_app_iff in ND2 as (Nd & Ny & D4).
  assert (Out : forall z, In z [u; v] -> ~ In z (ids c) /\ ~ In z (ids x) /\ ~ In z (ids d) /\ ~ In z (ids y)).
  { intros z Hz. specialize (D1 z Hz). rewrite !in_app_iff in D1. tauto. }
  assert (Cuv : forall z, In z (ids c) \/ In z (ids x) \/ In z (ids d) \/ In z (ids y) -> z <> u /\ z <> v).
  { intros z Hz. split; intros ->; [specialize (Out u)|specialize (Out v)]; simpl in Out; tauto. }
  assert (Dc : forall z, In z (ids c) -> ~ In z (ids x) /\ ~ In z (ids d) /\ ~ In z (ids y)).
  { intros z Hz. specialize (D2 z Hz). rewrite !in_app_iff in D2. tauto. }
  assert (Dx : forall z, In z (ids x) -> ~ In z (ids d) /\ ~ In z (ids y)).
  { intros z Hz. specialize (D3 z Hz). rewrite !in_app_iff in D3. tauto. }
  assert (Tc := uid_in c). assert (Td := uid_in d).
  split; [|split; [|split; [|split]]].
  - cbn [hang uid]. split; auto. split; auto. split.
    + eapply hang_move with (A := A); try eassumption. intros z Hz Nz. apply E; auto; try (apply Cuv; tauto). intros ->. destruct (Dc _ Tc) as (_ & ? & _). auto.
    + apply hang_ext with (A := A); auto. intros z Hz. destruct (Cuv z); [tauto|]. apply E; auto; intros ->; [destruct (Dc _ Tc) as (? & _)|destruct (Dx _ Hz) as (? & _)]; auto.
  - cbn [hang uid]. split; auto. split; auto. split.
    + eapply hang_move with (A := A); try eassumption. intros z Hz Nz. apply E; auto; try (apply Cuv; tauto). intros ->. destruct (Dc _ Hz) as (_ & ? & _). auto.
    + apply hang_ext with (A := A); auto. intros z Hz. destruct (Cuv z); [tauto|]. apply E; auto; intros ->; [destruct (Dc _ Tc) as (_ & _ & ?)|destruct (D4 _ Td)]; auto.
  - now rewrite <- P.
  - intros z Hz. rewrite <- P. destruct (Nat.eq_dec z u) as [->|Nu]; [left; auto|]. destruct (Nat.eq_dec z v) as [->|Nv]; [apply in_app_iff; right; left; auto|].
    destruct (Nat.eq_dec z (uid c)) as [->|Ec]; [apply in_app_iff; left; right; apply in_app_iff; auto|].
    destruct (Nat.eq_dec z (uid d)) as [->|Ed]; [apply in_app_iff; right; right; apply in_app_iff; auto|].
    apply Cov. rewrite <- E; auto.
  - rewrite <- Lv. simpl. rewrite (Permutation_app_comm (lvs c) (lvs x)), (Permutation_app_comm (lvs d) (lvs x)), <- !app_assoc.
    apply Permutation_app_head. rewrite !app_assoc. apply Permutation_app_tail. apply Permutation_app_comm.
Qed.
End Views.
