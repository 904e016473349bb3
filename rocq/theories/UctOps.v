(** * operations on the tree: graph-level specifications, histories, the stem *)
From Coq Require Import List Arith ZArith Lia Bool Permutation Sorted.
From Verif Require Import Base PathSpec UctSpec ModelOrder ModelPath ModelOpt PathProofs OptProofs DPProofs DPProofs2 ModelUct UctProofs UctPath UctSwitch UctSwitch2 UctSwitch3 UctInit UctInit2.
Import ListNotations.
Set Implicit Arguments.
Open Scope nat_scope.

Lemma hang_branch n A t : forall p, hang n A p t -> behind n A p (uid t) (shape t).
Proof.
  induction t as [i|v l IHl r IHr]; simpl; intros p H.
  - destruct H. constructor; auto.
  - destruct H as (H1 & H2 & H3 & H4). eapply br_node; eauto.
Qed.
Lemma view_seen n A a b T : view n A a b -> swapped (vshape a b) T -> seen_from n A (uid a) (uid b) T.
Proof. intros (H1 & H2 & _) S. exists (shape a), (shape b). split; [apply hang_branch; auto|]. split; [apply hang_branch; auto|]. exact S. Qed.

(** ** the edges of a view *)
Fixpoint es (t : ut) : list (nat * nat) :=
  match t with UL _ => [] | UN v l r => (v, uid l) :: (v, uid r) :: es l ++ es r end.
Definition ves (a b : ut) : list (nat * nat) := (uid a, uid b) :: es a ++ es b.
Definition sym (E : list (nat * nat)) (x y : nat) : Prop := In (x, y) E \/ In (y, x) E.
Lemma es_ids t : forall x y, In (x, y) (es t) -> In x (ids t) /\ In y (ids t).
Proof.
  induction t as [i|v l IHl r IHr]; simpl; intros x y H; [destruct H|].
  pose proof (uid_in l). pose proof (uid_in r). destruct H as [E|[E|H]].
  - inversion E; subst. split; auto. right. apply in_app_iff. auto.
  - inversion E; subst. split; auto. right. apply in_app_iff. auto.
  - apply in_app_iff in H as [H|H]; [destruct (IHl x y H)|destruct (IHr x y H)]; split; right; apply in_app_iff; auto.
Qed.
Lemma hang_es n A t : forall p x y, NoDup (ids t) -> hang n A p t -> In x (ids t) ->
  (In y (A x) <-> sym (es t) x y \/ (x = uid t /\ y = p)).
Proof.
  unfold sym. induction t as [i|v l IHl r IHr]; intros p x y ND H I.
  - destruct H as [_ E]. destruct I as [<-|[]]. rewrite E. simpl. intuition.
  - destruct H as (_ & P & Hl & Hr). simpl in ND. inversion ND as [|? ? Nv ND']; subst. apply NoDup_app_iff in ND' as (N1 & N2 & D). rewrite in_app_iff in Nv.
    pose proof (uid_in l) as Tl. pose proof (uid_in r) as Tr.
    assert (Kl : forall c d, In (c, d) (es l) -> In c (ids l) /\ In d (ids l)) by apply es_ids.
    assert (Kr : forall c d, In (c, d) (es r) -> In c (ids r) /\ In d (ids r)) by apply es_ids.
    cbn [es]. simpl In. rewrite !in_app_iff. simpl ids in I. destruct I as [<-|I].
    + rewrite P. simpl. split.
      * intros [E|[E|[E|[]]]]; subst; auto 10.
      * intros [[[E|[E|[E|E]]]|[E|[E|[E|E]]]]|[_ E]]; try (inversion E; subst; tauto); subst; auto;
          exfalso; first [apply Kl in E|apply Kr in E]; tauto.
    + apply in_app_iff in I as [I|I].
      * rewrite (IHl v x y N1 Hl I). assert (x <> v) by (intros ->; tauto). assert (~ In x (ids r)) by (intros J; apply (D x); auto).
        split.
        -- intros [[E|E]|[E1 E2]]; subst; auto 10.
        -- intros [[[E|[E|[E|E]]]|[E|[E|[E|E]]]]|[E _]]; try (inversion E; subst; tauto); subst; auto; try congruence;
             exfalso; apply Kr in E; tauto.
      * rewrite (IHr v x y N2 Hr I). assert (x <> v) by (intros ->; tauto). assert (~ In x (ids l)) by (intros J; apply (D x); auto).
        split.
        -- intros [[E|E]|[E1 E2]]; subst; auto 10.
        -- intros [[[E|[E|[E|E]]]|[E|[E|[E|E]]]]|[E _]]; try (inversion E; subst; tauto); subst; auto; try congruence;
             exfalso; apply Kl in E; tauto.
Qed.
Lemma view_es n A a b x y : view n A a b -> (In y (A x) <-> sym (ves a b) x y).
Proof.
  intros V. pose proof V as (Ha & Hb & ND & Cov & _). apply NoDup_app_iff in ND as (Na & Nb & D). unfold ves, sym. simpl In. rewrite !in_app_iff.
  assert (Ka : forall c d, In (c, d) (es a) -> In c (ids a) /\ In d (ids a)) by apply es_ids.
  assert (Kb : forall c d, In (c, d) (es b) -> In c (ids b) /\ In d (ids b)) by apply es_ids.
  pose proof (uid_in a) as Ta. pose proof (uid_in b) as Tb.
  split.
  - intros H. assert (I : In x (ids a ++ ids b)) by (apply Cov; intros E; rewrite E in H; destruct H).
    apply in_app_iff in I as [I|I].
    + apply (@hang_es n A a (uid b) x y Na Ha I) in H as [[H|H]|[-> ->]]; auto.
    + apply (@hang_es n A b (uid a) x y Nb Hb I) in H as [[H|H]|[-> ->]]; auto.
  - intros [[E|[E|E]]|[E|[E|E]]].
    + inversion E; subst. apply (@hang_es n A a (uid b) _ _ Na Ha Ta). auto.
    + destruct (Ka _ _ E). apply (@hang_es n A a (uid b) x y); auto. left; left; auto.
    + destruct (Kb _ _ E). apply (@hang_es n A b (uid a) x y); auto. left; left; auto.
    + inversion E; subst. apply (@hang_es n A b (uid a) _ _ Nb Hb Tb). auto.
    + destruct (Ka _ _ E). apply (@hang_es n A a (uid b) x y); auto. left; right; auto.
    + destruct (Kb _ _ E). apply (@hang_es n A b (uid a) x y); auto. left; right; auto.
Qed.
Lemma sym_cons p q E x y : sym ((p, q) :: E) x y <-> same_edge x y p q \/ sym E x y.
Proof. unfold sym, same_edge. simpl. split; [intros [[[= -> ->]|H]|[[= -> ->]|H]]; auto|intros [[[-> ->]|[-> ->]]|[H|H]]; auto]. Qed.
Lemma sym_app E F x y : sym (E ++ F) x y <-> sym E x y \/ sym F x y.
Proof. unfold sym. rewrite !in_app_iff. tauto. Qed.
(** the four branches around an edge *)
Lemma cross n A a b u c0 v c1 : view n A a b -> In c0 (A u) -> In v (A u) -> In c1 (A v) -> c0 <> v -> c1 <> u ->
  exists C X D Y, uid C = c0 /\ uid D = c1 /\ view n A (UN u C X) (UN v D Y) /\ rerooted (vshape a b) (vshape (UN u C X) (UN v D Y)).
Proof.
  intros V H0 Hv H1 N0 N1. destruct (@reroot n A a b u v V Hv) as (a1 & b1 & V1 & <- & <- & R1).
  destruct (@view_node n A _ _ _ V1 H0 N0) as (C & X & E0 & V2 & R2). apply view_sym in V2.
  destruct (@view_node n A _ _ _ V2 H1 N1) as (D & Y & E1 & V3 & R3). exists C, X, D, Y. split; auto. split; auto. split; [now apply view_sym|].
  eapply rr_trans; [exact R1|]. eapply rr_trans; [exact R2|]. eapply rr_trans; [apply rr_flip|]. eapply rr_trans; [exact R3|]. apply rr_flip.
Qed.
Lemma cross_edges n A A' u C X v D Y : view n A (UN u C X) (UN v D Y) -> view n A' (UN u D X) (UN v C Y) ->
  edges_exchanged A A' u (uid C) v (uid D).
Proof.
  intros V V' x y. rewrite (@view_es n A _ _ x y V), (@view_es n A' _ _ x y V'). unfold ves. cbn [es uid app]. rewrite !sym_cons, !sym_app, !sym_cons, !sym_app.
  pose proof V as (_ & _ & ND & _). simpl in ND. inversion ND as [|? ? Nu ND1]; subst.
  assert (ND2 : NoDup (v :: ids C ++ ids X ++ ids D ++ ids Y)).
  { eapply Permutation_NoDup; [|exact ND1]. rewrite <- app_assoc. rewrite <- !Permutation_middle. auto. }
  rewrite !in_app_iff in Nu. simpl in Nu. rewrite in_app_iff in Nu. clear ND ND1.
  inversion ND2 as [|? ? Nv ND3]; subst. rewrite !in_app_iff in Nv.
  apply NoDup_app_iff in ND3 as (_ & ND3 & DC). apply NoDup_app_iff in ND3 as (_ & ND3 & DX). apply NoDup_app_iff in ND3 as (_ & _ & DD).
  pose proof (uid_in C) as TC. pose proof (uid_in D) as TD. pose proof (uid_in X) as TX. pose proof (uid_in Y) as TY.
  assert (Nuv : u <> v) by (intros ->; tauto).
  assert (U1 : u <> uid C /\ u <> uid D /\ u <> uid X /\ u <> uid Y) by (repeat split; intros E; rewrite E in Nu; tauto).
  assert (U2 : v <> uid C /\ v <> uid D /\ v <> uid X /\ v <> uid Y) by (repeat split; intros E; rewrite E in Nv; tauto).
  assert (U3 : uid C <> uid D /\ uid C <> uid X /\ uid C <> uid Y /\ uid X <> uid D /\ uid X <> uid Y /\ uid D <> uid Y).
  { repeat split; intros E; [apply (DC _ TC)|apply (DC _ TC)|apply (DC _ TC)|apply (DX _ TX)|apply (DX _ TX)|apply (DD _ TD)]; rewrite E; rewrite ?in_app_iff; auto. }
  assert (Q : forall t, ~ In u (ids t) -> ~ In v (ids t) -> sym (es t) x y -> x <> u /\ x <> v /\ y <> u /\ y <> v).
  { intros t M1 M2 [H|H]; apply es_ids in H as [H1 H2]; repeat split; intros ->; tauto. }
  assert (QC := Q C ltac:(tauto) ltac:(tauto)). assert (QD := Q D ltac:(tauto) ltac:(tauto)). assert (QX := Q X ltac:(tauto) ltac:(tauto)). assert (QY := Q Y ltac:(tauto) ltac:(tauto)).
  assert (G : forall P : Prop, (P -> x <> u /\ x <> v /\ y <> u /\ y <> v) -> P -> ~ same_edge x y u (uid C) /\ ~ same_edge x y v (uid D)).
  { intros P K HP. destruct (K HP) as (K1 & K2 & K3 & K4). unfold same_edge. split; intros [[? ?]|[? ?]]; tauto. }
  assert (HC := G _ QC). assert (HD := G _ QD). assert (HX := G _ QX). assert (HY := G _ QY). clear Q QC QD QX QY G.
  destruct U1 as (U11 & U12 & U13 & U14), U2 as (U21 & U22 & U23 & U24), U3 as (U31 & U32 & U33 & U34 & U35 & U36).
  assert (O1 : same_edge x y u v -> ~ same_edge x y u (uid C) /\ ~ same_edge x y v (uid D)) by (unfold same_edge; intros [[-> ->]|[-> ->]]; split; intros [[? ?]|[? ?]]; congruence).
  assert (O2 : same_edge x y u (uid X) -> ~ same_edge x y u (uid C) /\ ~ same_edge x y v (uid D)) by (unfold same_edge; intros [[-> ->]|[-> ->]]; split; intros [[? ?]|[? ?]]; congruence).
  assert (O3 : same_edge x y v (uid Y) -> ~ same_edge x y u (uid C) /\ ~ same_edge x y v (uid D)) by (unfold same_edge; intros [[-> ->]|[-> ->]]; split; intros [[? ?]|[? ?]]; congruence).
  clear - HC HD HX HY O1 O2 O3. tauto.
Qed.

(** ** one exchange *)
Theorem switch_path t u c0 v c1 : uok t -> let A := nbs (u_adj t) in
  In c0 (A u) -> In v (A u) -> In c1 (A v) -> c0 <> v -> c1 <> u ->
  exists t', switch_edges t u c0 v c1 = Ok t' /\ uok t' /\ same_frame t t' /\ edges_exchanged A (nbs (u_adj t')) u c0 v c1 /\
    exists C X D Y, view (u_n t) A (UN u C X) (UN v D Y) /\ view (u_n t) (nbs (u_adj t')) (UN u D X) (UN v C Y) /\ uid C = c0 /\ uid D = c1.
Proof.
  intros U A H0 Hv H1 N0 N1. destruct (g_view (k_graph U)) as (a & b & V & _).
  destruct (@cross _ _ _ _ _ _ _ _ V H0 Hv H1 N0 N1) as (C & X & D & Y & <- & <- & V1 & _).
  destruct (@switch_ok _ _ _ _ _ _ _ U V1) as (t' & E & U' & S & V2). exists t'. split; auto. split; auto. split; auto.
  split; [eapply cross_edges; eauto|]. exists C, X, D, Y. auto.
Qed.

(** ** paths in the tree *)
Fixpoint chain (A : nat -> list nat) (s : list nat) : Prop :=
  match s with x :: (y :: _) as r => In y (A x) /\ chain A r | _ => True end.
Lemma chain_cons2 A x y r : chain A (x :: y :: r) <-> In y (A x) /\ chain A (y :: r).
Proof. simpl. tauto. Qed.
Lemma chain_app A x s2 : forall s1, chain A (s1 ++ x :: s2) <-> chain A (s1 ++ [x]) /\ chain A (x :: s2).
Proof.
  induction s1 as [|y s1 IH]; [simpl app; cbn; tauto|]. destruct s1 as [|z s1].
  - simpl app. rewrite !chain_cons2. cbn. tauto.
  - simpl app in *. rewrite !(chain_cons2 A y), IH. tauto.
Qed.
Lemma simple_chain A s : simple_path A s <-> NoDup s /\ chain A s.
Proof.
  unfold simple_path. split; intros [N H]; split; auto.
  - clear N. induction s as [|x s IH]; [exact I|]. destruct s as [|y s]; [exact I|]. rewrite chain_cons2. split; [apply (H [] x y s); auto|].
    apply IH. intros s1 p q s2 E. apply (H (x :: s1) p q s2). simpl. now rewrite E.
  - intros s1 x y s2 ->. apply chain_app in H as [_ H]. rewrite chain_cons2 in H. tauto.
Qed.
Lemma chain_rev A s : (forall x y, In y (A x) -> In x (A y)) -> chain A s -> chain A (rev s).
Proof.
  intros S. induction s as [|x s IH]; simpl; auto. destruct s as [|y s]; [simpl; auto|]. intros [H1 H2]. specialize (IH H2). simpl in *.
  rewrite <- app_assoc. simpl. apply chain_app. split; auto. simpl. auto.
Qed.
Lemma chain_keep A A' s : (forall x y, In x s -> In y s -> In y (A x) -> In y (A' x)) -> chain A s -> chain A' s.
Proof.
  induction s as [|x s IH]; [simpl; auto|]. destruct s as [|y s]; [simpl; auto|]. intros H. rewrite !chain_cons2. intros [H1 H2]. split.
  - apply H; simpl; auto.
  - apply IH; auto. intros p q Hp Hq. apply H; right; auto.
Qed.
(** a walk that avoids the near end of an edge stays on its side *)
Lemma stay n A a b s : view n A a b -> forall x, In x (ids a) -> ~ In (uid a) (x :: s) -> chain A (x :: s) -> forall y, In y (x :: s) -> In y (ids a).
Proof.
  intros V. pose proof V as (Ha & _ & ND & _). apply NoDup_app_iff in ND as (Na & _ & _).
  induction s as [|z s IH]; intros x Ix Nx Ch y Iy.
  - destruct Iy as [<-|[]]. auto.
  - rewrite chain_cons2 in Ch. destruct Ch as [C1 C2]. destruct Iy as [<-|Iy]; auto. apply (IH z); auto.
    + apply (@hang_es n A a (uid b) x z Na Ha Ix) in C1. destruct C1 as [[H|H]|[-> _]]; [| |exfalso; apply Nx; simpl; auto]; apply es_ids in H; tauto.
    + intros H. apply Nx. right. auto.
Qed.
Lemma side n A a b z : view n A a b -> In z (A (uid a)) -> z <> uid b -> In z (ids a).
Proof.
  intros V Hz Nz. pose proof V as (Ha & _ & ND & _). apply NoDup_app_iff in ND as (Na & _ & _).
  apply (@hang_es n A a (uid b) (uid a) z Na Ha (uid_in a)) in Hz. destruct Hz as [[H|H]|[_ H]]; [| |congruence]; apply es_ids in H; tauto.
Qed.
Lemma off_stem n A a b s1 t0 u t1 s2 v : view n A a b -> simple_path A (s1 ++ t0 :: u :: t1 :: s2) -> In v (A u) -> v <> t0 -> v <> t1 ->
  ~ In v (s1 ++ t0 :: u :: t1 :: s2).
Proof.
  intros V S Hv N0 N1. rewrite simple_chain in S. destruct S as [ND Ch].
  assert (Sym : forall x y, In y (A x) -> In x (A y)) by (intros x y Hxy; apply (@view_edge _ _ _ _ x y V Hxy)).
  destruct (@reroot n A a b u v V Hv) as (a1 & b1 & V1 & <- & <- & _). set (u := uid a1) in *. set (v := uid b1) in *.
  assert (Nuv : u <> v) by apply (@view_nodup_neq _ _ _ _ V1).
  assert (Out : ~ In v (ids a1)). { destruct V1 as (_ & _ & N & _). apply NoDup_app_iff in N as (_ & _ & D). intros I. apply (D _ I). apply uid_in. }
  assert (Ch1 : chain A (u :: t0 :: rev s1)).
  { assert (C : chain A (s1 ++ [t0; u])). { replace (s1 ++ t0 :: u :: t1 :: s2) with ((s1 ++ [t0]) ++ u :: t1 :: s2) in Ch by (rewrite <- app_assoc; auto). apply chain_app in Ch as [Ch _]. rewrite <- app_assoc in Ch. exact Ch. }
    apply chain_rev in C; auto. rewrite rev_app_distr in C. exact C. }
  assert (Ch2 : chain A (u :: t1 :: s2)). { replace (s1 ++ t0 :: u :: t1 :: s2) with ((s1 ++ [t0]) ++ u :: t1 :: s2) in Ch by (rewrite <- app_assoc; auto). apply chain_app in Ch. tauto. }
  assert (ND' : NoDup (u :: (s1 ++ [t0]) ++ t1 :: s2)). { replace (s1 ++ t0 :: u :: t1 :: s2) with ((s1 ++ [t0]) ++ u :: t1 :: s2) in ND by (rewrite <- app_assoc; auto). rewrite <- Permutation_middle in ND. auto. }
  inversion ND' as [|? ? Nu _]; subst. rewrite in_app_iff, in_app_iff in Nu.
  rewrite chain_cons2 in Ch1, Ch2. destruct Ch1 as [E1 Ch1], Ch2 as [E2 Ch2].
  intros I. apply in_app_iff in I. simpl in I. destruct I as [I|[I|[I|[I|I]]]]; try congruence.
  - apply Out. apply (@stay n A a1 b1 (rev s1) V1 t0); auto.
    + apply (side V1); auto.
    + fold u. intros [J|J]; [apply Nu; left; right; simpl; auto|]. apply in_rev in J. tauto.
    + right. apply -> in_rev. auto.
  - apply Out. apply (@stay n A a1 b1 s2 V1 t1); auto.
    + apply (side V1); auto.
    + right. auto.
Qed.

(** ** stem operations *)
Lemma slice_at s1 (m s2 : list nat) : slice (s1 ++ m ++ s2) (length s1) (length m) = m.
Proof. unfold slice. rewrite skipn_app, skipn_all, Nat.sub_diag. simpl. rewrite firstn_app, Nat.sub_diag, firstn_all. simpl. apply app_nil_r. Qed.
Lemma third_ok n A adj a b u x y : view n A a b -> A = nbs adj -> In x (A u) -> In y (A u) -> x <> y ->
  exists c, third adj u x y = Ok c /\ n <= u /\ Permutation (A u) [x; y; c] /\ c <> x /\ c <> y /\ In c (A u).
Proof.
  intros V EA Hx Hy N. assert (NE : A u <> []) by (intros E; rewrite E in Hx; destruct Hx).
  destruct (@view_leaf _ _ _ _ u V NE) as [K1 K2]. destruct (le_lt_dec n u) as [Lu|Lu].
  - destruct (K2 Lu) as (p & c0 & c1 & P). pose proof (@view_NoDup _ _ _ _ u V) as ND. unfold third. rewrite <- EA.
    assert (exists c, Permutation (A u) [x; y; c]) as (c & Q).
    { apply in_split in Hx as (l1 & l2 & E). assert (P1 : Permutation (A u) (x :: l1 ++ l2)) by (rewrite E; symmetry; apply Permutation_middle).
      rewrite P1 in Hy. destruct Hy as [?|Hy]; [congruence|]. apply in_split in Hy as (m1 & m2 & E2).
      rewrite E2 in P1. rewrite <- Permutation_middle in P1. pose proof (Permutation_length P) as L1. rewrite (Permutation_length P1) in L1. simpl in L1.
      destruct (m1 ++ m2) as [|c [|]]; simpl in L1; try lia. exists c. auto. }
    exists c. assert (ND2 : NoDup [x; y; c]) by (rewrite <- Q; auto). inversion ND2 as [|? ? M1 M2]; subst. inversion M2 as [|? ? M3 _]; subst. simpl in M1, M3.
    split; [|split; [auto|split; [auto|split; [intros ->; tauto|split; [intros ->; tauto|rewrite Q; simpl; auto]]]]].
    pose proof (@OptProofs.perm_filter _ (fun c => negb ((c =? x) || (c =? y))) _ _ Q) as F. simpl in F.
    rewrite !Nat.eqb_refl, orb_true_r in F. simpl in F. rewrite (proj2 (Nat.eqb_neq c x)), (proj2 (Nat.eqb_neq c y)) in F by (intros ->; tauto). simpl in F.
    apply Permutation_sym, Permutation_length_1_inv in F. rewrite F. auto.
  - destruct (K1 Lu) as (p & E). rewrite E in Hx, Hy. simpl in *. destruct Hx as [<-|[]], Hy as [<-|[]]. congruence.
Qed.

Lemma triangle n A a b u v w : view n A a b -> In v (A u) -> In w (A u) -> In w (A v) -> False.
Proof.
  intros V H1 H2 H3. destruct (@view_edge _ _ _ _ _ _ V H1) as [H1' N1]. destruct (@view_edge _ _ _ _ _ _ V H2) as [H2' N2]. destruct (@view_edge _ _ _ _ _ _ V H3) as [H3' N3].
  destruct (@reroot n A a b v w V H3) as (a1 & b1 & V1 & <- & <- & _).
  assert (I : In u (ids a1)) by (apply (side V1); auto).
  assert (J : In (uid b1) (ids a1)). { apply (@stay n A a1 b1 [uid b1] V1 u); auto; [simpl; intuition congruence|simpl; auto|simpl; auto]. }
  destruct V1 as (_ & _ & ND & _). apply NoDup_app_iff in ND as (_ & _ & D). apply (D _ J). apply uid_in.
Qed.
Lemma same_frame_trans a b c : same_frame a b -> same_frame b c -> same_frame a c.
Proof. unfold same_frame. intros (H1 & H2 & H3) (H4 & H5 & H6). repeat split; congruence. Qed.
Lemma simple_next A s1 x y s2 : simple_path A (s1 ++ x :: y :: s2) -> In y (A x).
Proof. intros [_ H]. eapply H; eauto. Qed.

Lemma pull3 (s1 : list nat) t0 u v r : Permutation (s1 ++ t0 :: u :: v :: r) (v :: s1 ++ t0 :: u :: r).
Proof. pose proof (Permutation_middle (s1 ++ [t0; u]) r v) as P. rewrite <- !app_assoc in P. symmetry. exact P. Qed.
Section Stem.
  Variable t : uct.
  Hypothesis U : uok t.
  Let A := nbs (u_adj t).
  Lemma four s1 t0 u v t1 s2 : simple_path A (s1 ++ t0 :: u :: v :: t1 :: s2) ->
    exists c0 c1, third (u_adj t) u t0 v = Ok c0 /\ third (u_adj t) v u t1 = Ok c1 /\
      In t0 (A u) /\ In v (A u) /\ In u (A v) /\ In t1 (A v) /\ t1 <> u /\
      In c0 (A u) /\ c0 <> v /\ In c1 (A v) /\ c1 <> u /\
      ~ In c0 (s1 ++ t0 :: u :: v :: t1 :: s2) /\ ~ In c1 (s1 ++ t0 :: u :: v :: t1 :: s2).
  Proof.
    intros SP. destruct (g_view (k_graph U)) as (a & b & V & _). fold A in V.
    assert (Sym : forall x y, In y (A x) -> In x (A y)) by (intros x y Hxy; apply (@view_edge _ _ _ _ x y V Hxy)).
    pose proof (@simple_next _ _ _ _ _ SP) as E1.
    assert (S' : simple_path A ((s1 ++ [t0]) ++ u :: v :: t1 :: s2)) by (rewrite <- app_assoc; exact SP). pose proof (@simple_next _ _ _ _ _ S') as E2.
    assert (S'' : simple_path A ((s1 ++ [t0; u]) ++ v :: t1 :: s2)) by (rewrite <- app_assoc; exact SP). pose proof (@simple_next _ _ _ _ _ S'') as E3.
    destruct SP as [ND SP]. assert (ND2 : NoDup (t0 :: u :: v :: t1 :: s2)) by (apply NoDup_app_iff in ND; tauto).
    inversion ND2 as [|? ? M1 ND3]; subst. inversion ND3 as [|? ? M2 _]; subst. simpl in M1, M2.
    destruct (@third_ok _ A (u_adj t) a b u t0 v V eq_refl) as (c0 & T0 & _ & _ & N00 & N01 & I0); [apply Sym; auto|auto|intros ->; tauto|].
    destruct (@third_ok _ A (u_adj t) a b v u t1 V eq_refl) as (c1 & T1 & _ & _ & N10 & N11 & I1); [apply Sym; auto|auto|intros ->; tauto|].
    exists c0, c1. split; auto. split; auto. split; [apply Sym; auto|]. split; auto. split; [apply Sym; auto|]. split; auto. split; [intros ->; tauto|]. split; auto. split; auto. split; auto. split; auto.
    split.
    - apply (@off_stem _ _ _ _ _ _ _ _ _ _ V (conj ND SP) I0 N00 N01).
    - pose proof (@off_stem _ _ _ _ (s1 ++ [t0]) u v t1 s2 _ V S' I1 N10 N11) as O. rewrite <- app_assoc in O. exact O.
  Qed.
  Lemma branches_ok s1 t0 u v t1 s2 : let stem := s1 ++ t0 :: u :: v :: t1 :: s2 in simple_path A stem ->
    exists t' c0 c1, switch_branches t stem (S (length s1)) = Ok (t', stem) /\ uok t' /\ same_frame t t' /\ simple_path (nbs (u_adj t')) stem /\
      edges_exchanged A (nbs (u_adj t')) u c0 v c1 /\ In c0 (A u) /\ In c1 (A v) /\ ~ In c0 stem /\ ~ In c1 stem.
  Proof.
    intros stem SP. destruct (@four _ _ _ _ _ _ SP) as (c0 & c1 & T0 & T1 & _ & Hv & _ & _ & _ & I0 & N0 & I1 & N1 & O0 & O1). fold stem in O0, O1.
    destruct (@switch_path t u c0 v c1 U I0 Hv I1 N0 N1) as (t' & E & U' & F & X & _). fold A in X.
    exists t', c0, c1. split; [|split; [auto|split; [auto|split; [|auto]]]].
    - unfold switch_branches. replace (S (length s1) - 1) with (length s1) by lia. unfold stem. change (slice _ (length s1) 4) with (slice (s1 ++ [t0; u; v; t1] ++ s2) (length s1) (length [t0; u; v; t1])). rewrite slice_at. rewrite T0. cbn [bind]. rewrite T1. cbn [bind]. rewrite E. auto.
    - rewrite simple_chain in *. destruct SP as [ND Ch]. split; auto. eapply chain_keep; [|exact Ch]. intros x y Hx Hy H. apply X. right; right. split; auto.
      unfold same_edge. split; intros [[-> ->]|[-> ->]]; auto.
  Qed.
  Lemma merge_ok s1 t0 u v t1 s2 : let stem := s1 ++ t0 :: u :: v :: t1 :: s2 in let stem' := s1 ++ t0 :: u :: t1 :: s2 in simple_path A stem ->
    exists t' c0, merge_branches t stem (S (length s1)) = Ok (t', stem', c0) /\ uok t' /\ same_frame t t' /\ simple_path (nbs (u_adj t')) stem' /\
      edges_exchanged A (nbs (u_adj t')) u c0 v t1 /\ In c0 (A u) /\ ~ In c0 stem.
  Proof.
    intros stem stem' SP. destruct (@four _ _ _ _ _ _ SP) as (c0 & c1 & T0 & _ & _ & Hv & _ & I1 & N1 & I0 & N0 & _ & _ & O0 & _). fold stem in O0.
    destruct (@switch_path t u c0 v t1 U I0 Hv I1 N0 N1) as (t' & E & U' & F & X & _). fold A in X.
    exists t', c0. split; [|split; [auto|split; [auto|split; [|auto]]]].
    - unfold merge_branches. replace (S (length s1) - 1) with (length s1) by lia. unfold stem. change (slice _ (length s1) 4) with (slice (s1 ++ [t0; u; v; t1] ++ s2) (length s1) (length [t0; u; v; t1])). rewrite slice_at. rewrite T0. cbn [bind]. rewrite E. cbn [bind].
      replace (S (length s1) + 1) with (length (s1 ++ [t0; u])) by (rewrite app_length; simpl; lia).
      replace (s1 ++ t0 :: u :: v :: t1 :: s2) with ((s1 ++ [t0; u]) ++ v :: t1 :: s2) by (rewrite <- app_assoc; auto). rewrite del_nth_app. unfold stem'. now rewrite <- app_assoc.
    - rewrite simple_chain in *. destruct SP as [ND Ch].
      assert (PN : Permutation stem (v :: stem')). { apply pull3. }
      assert (ND2 : NoDup (v :: stem')) by (rewrite <- PN; auto). inversion ND2 as [|? ? Nv ND']; subst. split; auto.
      assert (Keep : forall x y, In x stem' -> In y stem' -> In y (A x) -> In y (nbs (u_adj t') x)).
      { intros x y Hx Hy H. apply X. right; right. split; auto. assert (O0' : ~ In c0 stem') by (intros J; apply O0; rewrite PN; right; auto).
        unfold same_edge. split; intros [[-> ->]|[-> ->]]; auto. }
      assert (C1 : chain A (s1 ++ [t0; u]) /\ chain A (t1 :: s2)).
      { unfold stem in Ch. replace (s1 ++ t0 :: u :: v :: t1 :: s2) with ((s1 ++ [t0]) ++ u :: v :: t1 :: s2) in Ch by (rewrite <- app_assoc; auto).
        apply chain_app in Ch as [C1 C2]. rewrite <- app_assoc in C1. simpl in C1. split; auto. rewrite !chain_cons2 in C2. tauto. }
      destruct C1 as [C1 C2]. unfold stem'. replace (s1 ++ t0 :: u :: t1 :: s2) with ((s1 ++ [t0]) ++ u :: t1 :: s2) by (rewrite <- app_assoc; auto).
      apply chain_app. rewrite <- app_assoc. split.
      + eapply chain_keep; [|exact C1]. intros x y Hx Hy. apply Keep; unfold stem'; rewrite in_app_iff in *; simpl in *; tauto.
      + rewrite chain_cons2. split; [apply X; left; left; auto|]. eapply chain_keep; [|exact C2]. intros x y Hx Hy. apply Keep; unfold stem'; rewrite in_app_iff; simpl in *; tauto.
  Qed.
  Lemma unmerge_ok s1 t0 u t1 s2 v co : let stem := s1 ++ t0 :: u :: t1 :: s2 in let stem' := s1 ++ t0 :: u :: v :: t1 :: s2 in simple_path A stem ->
    In v (A u) -> v <> t0 -> v <> t1 -> u_n t <= v -> (match co with Some c => In c (A v) /\ c <> u | None => True end) ->
    exists t' c, unmerge_branches t stem (S (length s1)) co = Ok (t', stem') /\ uok t' /\ same_frame t t' /\ simple_path (nbs (u_adj t')) stem' /\
      edges_exchanged A (nbs (u_adj t')) u t1 v c /\ In c (A v) /\ c <> u /\ (forall d, co = Some d -> c = d).
  Proof.
    intros stem stem' SP Hv N0 N1 Lv Hc. destruct (g_view (k_graph U)) as (a & b & V & _). fold A in V.
    assert (Sym : forall x y, In y (A x) -> In x (A y)) by (intros x y Hxy; apply (@view_edge _ _ _ _ x y V Hxy)).
    pose proof (@simple_next _ _ _ _ _ SP) as E1.
    assert (S' : simple_path A ((s1 ++ [t0]) ++ u :: t1 :: s2)) by (rewrite <- app_assoc; exact SP). pose proof (@simple_next _ _ _ _ _ S') as E2.
    assert (ND : NoDup (t0 :: u :: t1 :: s2)) by (destruct SP as [ND _]; apply NoDup_app_iff in ND; tauto).
    inversion ND as [|? ? M1 _]; subst. simpl in M1.
    destruct (@third_ok _ A (u_adj t) a b u t0 t1 V eq_refl) as (w & T0 & _ & P & Nw0 & Nw1 & Iw); [apply Sym; auto|auto|intros ->; tauto|].
    assert (Ew : w = v). { rewrite P in Hv. simpl in Hv. destruct Hv as [?|[?|[?|[]]]]; congruence. } subst w.
    pose proof (@off_stem _ _ _ _ _ _ _ _ _ _ V SP Hv N0 N1) as O. fold stem in O.
    assert (exists c, (match co with Some c => Ok c | None => match others (u_adj t) v u with [] => Err ValueError | x :: r => Ok (fold_left Nat.min r x) end end) = Ok c /\ In c (A v) /\ c <> u /\ (forall d, co = Some d -> c = d)) as (c & Ec & Ic & Nc & Dc).
    { destruct co as [c|]; [exists c; destruct Hc; repeat split; auto; congruence|].
      destruct (@view_leaf _ _ _ _ v V) as [_ K]. { intros E. apply Sym in Hv. rewrite E in Hv. destruct Hv. }
      destruct (K Lv) as (p & c0 & c1 & Q).
      assert (Iu : In u (A v)) by (apply Sym; auto).
      assert (F : forall z, In z (others (u_adj t) v u) <-> In z (A v) /\ z <> u). { intros z. unfold others. rewrite filter_In, negb_true_iff, Nat.eqb_neq. tauto. }
      destruct (others (u_adj t) v u) as [|x r] eqn:Eo.
      - exfalso. pose proof (@view_NoDup _ _ _ _ v V) as NV. rewrite Q in NV. inversion NV as [|? ? X1 X2]; subst. inversion X2 as [|? ? X3 _]; subst. simpl in X1, X3.
        assert (forall z, In z (A v) -> z = u). { intros z Hz. destruct (Nat.eq_dec z u); auto. destruct (proj2 (F z) (conj Hz n)). }
        assert (p = u) by (apply H; rewrite Q; simpl; auto). assert (c0 = u) by (apply H; rewrite Q; simpl; auto). subst. tauto.
      - exists (fold_left Nat.min r x). split; auto.
        assert (I : In (fold_left Nat.min r x) (x :: r)). { clear. revert x. induction r as [|y r IH]; intros x; simpl; auto. destruct (IH (Nat.min x y)) as [E|E]; [|auto]. rewrite <- E. destruct (Nat.min_spec x y) as [[_ ->]|[_ ->]]; auto. }
        apply F in I as [I1 I2]. repeat split; auto. discriminate. }
    destruct (@switch_path t u t1 v c U E2 Hv Ic) as (t' & E & U' & Fr & X & _); [intros ->; congruence|auto|]. fold A in X.
    exists t', c. split; [|split; [auto|split; [auto|split; [|auto]]]].
    - unfold unmerge_branches. replace (S (length s1) - 1) with (length s1) by lia. unfold stem. change (slice _ (length s1) 3) with (slice (s1 ++ [t0; u; t1] ++ s2) (length s1) (length [t0; u; t1])). rewrite slice_at. rewrite T0. cbn [bind]. rewrite Ec. cbn [bind]. rewrite E. cbn [bind].
      replace (S (length s1) + 1) with (length (s1 ++ [t0; u])) by (rewrite app_length; simpl; lia).
      replace (s1 ++ t0 :: u :: t1 :: s2) with ((s1 ++ [t0; u]) ++ t1 :: s2) by (rewrite <- app_assoc; auto).
      rewrite firstn_app, firstn_all, Nat.sub_diag, skipn_app, skipn_all, Nat.sub_diag. simpl. rewrite app_nil_r, <- app_assoc. auto.
    - rewrite simple_chain in *. destruct SP as [ND1 Ch].
      assert (PN : Permutation stem' (v :: stem)). { apply pull3. }
      split; [rewrite PN; constructor; auto|].
      assert (C1 : chain A (s1 ++ [t0; u]) /\ chain A (t1 :: s2)).
      { unfold stem in Ch. replace (s1 ++ t0 :: u :: t1 :: s2) with ((s1 ++ [t0]) ++ u :: t1 :: s2) in Ch by (rewrite <- app_assoc; auto).
        apply chain_app in Ch as [C1 C2]. rewrite <- app_assoc in C1. simpl in C1. split; auto. rewrite !chain_cons2 in C2. tauto. }
      destruct C1 as [C1 C2]. unfold stem'. replace (s1 ++ t0 :: u :: v :: t1 :: s2) with ((s1 ++ [t0]) ++ u :: v :: t1 :: s2) by (rewrite <- app_assoc; auto).
      assert (ND3 : ~ In t1 (s1 ++ [t0; u]) /\ ~ In u (t1 :: s2)).
      { unfold stem in ND1. replace (s1 ++ t0 :: u :: t1 :: s2) with ((s1 ++ [t0; u]) ++ t1 :: s2) in ND1 by (rewrite <- app_assoc; auto). apply NoDup_app_iff in ND1 as (_ & _ & D).
        split; [intros J; apply (D _ J); simpl; auto|]. apply D. rewrite in_app_iff; simpl; auto. }
      destruct ND3 as [ND3 ND4].
      apply chain_app. rewrite <- app_assoc. split.
      + eapply chain_keep; [|exact C1]. intros x y Hx Hy H. apply X. right; right. split; auto.
        assert (~ In v (s1 ++ [t0; u])). { intros J. apply O. unfold stem. rewrite in_app_iff in *. simpl in *. tauto. }
        unfold same_edge. simpl in Hx, Hy. split; intros [[-> ->]|[-> ->]]; auto.
      + rewrite !chain_cons2. split; [|split].
        * apply X. right; right. split; auto. unfold same_edge. assert (u <> v) by (apply (@view_edge _ _ _ _ _ _ V Hv)).
          split; intros [[? ?]|[? ?]]; congruence.
        * apply X. right; left. left. auto.
        * eapply chain_keep; [|exact C2]. intros x y Hx Hy H. apply X. right; right. split; auto.
          assert (~ In v (t1 :: s2)). { intros J. apply O. unfold stem. rewrite in_app_iff. simpl in *. tauto. }
          unfold same_edge. split; intros [[-> ->]|[-> ->]]; auto.
  Qed.
End Stem.
