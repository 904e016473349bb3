(** * switch_edges and step_root keep the invariant of undirected contraction trees *)
From Coq Require Import List Arith ZArith Lia Bool Permutation Sorted.
From Verif Require Import Base PathSpec UctSpec ModelOrder ModelPath ModelOpt PathProofs OptProofs DPProofs DPProofs2 ModelUct UctProofs UctPath.
Import ListNotations.
Set Implicit Arguments.
Open Scope nat_scope.

(** ** the graph *)
Lemma nbs_set u l adj w : nbs (set u l adj) w = if w =? u then l else nbs adj w.
Proof. unfold nbs. rewrite get_set. change (@eqb nat _) with Nat.eqb. destruct (w =? u); auto. Qed.
Lemma half_adj adj u v c ru rc : u <> v -> u <> c -> v <> c -> NoDup (c :: ru) -> NoDup (u :: rc) ->
  Permutation (nbs adj u) (c :: ru) -> Permutation (nbs adj c) (u :: rc) -> ~ In c (nbs adj v) -> ~ In v (nbs adj c) ->
  let A' := nbs (del_edge u c (add_edge v c adj)) in
  Permutation (A' u) ru /\ Permutation (A' v) (c :: nbs adj v) /\ Permutation (A' c) (v :: rc) /\
  (forall z, z <> u -> z <> v -> z <> c -> A' z = nbs adj z).
Proof.
  intros Nuv Nuc Nvc NDu NDc Pu Pc Ic Iv. cbn zeta. unfold del_edge, add_edge, del_nb, add_nb.
  inversion NDu as [|? ? Nru NDru]; subst. inversion NDc as [|? ? Nrc NDrc]; subst.
  repeat (rewrite ?nbs_set; rewrite ?Nat.eqb_refl;
          rewrite ?(proj2 (Nat.eqb_neq u v)), ?(proj2 (Nat.eqb_neq v u)), ?(proj2 (Nat.eqb_neq u c)), ?(proj2 (Nat.eqb_neq c u)),
            ?(proj2 (Nat.eqb_neq v c)), ?(proj2 (Nat.eqb_neq c v)) by congruence).
  rewrite (proj2 (mem_false v (nbs adj c)) Iv), (proj2 (mem_false c (nbs adj v)) Ic).
  split; [now apply perm_filter|]. split; [rewrite Permutation_app_comm; auto|]. split.
  - apply perm_filter; [simpl; intros [E|E]; [congruence|auto]|]. rewrite Pc. simpl. apply perm_skip. rewrite Permutation_app_comm. auto.
  - intros z N1 N2 N3. repeat (rewrite ?nbs_set). rewrite ?(proj2 (Nat.eqb_neq z u)), ?(proj2 (Nat.eqb_neq z v)), ?(proj2 (Nat.eqb_neq z c)) by congruence. auto.
Qed.

(** ** subscript sets *)
Definition asc (s : nset) : Prop := StronglySorted lt s.
Lemma sunion_asc a b : asc (sunion a b).
Proof. apply mkset_asc. Qed.
Lemma sunion_comm a b : sunion a b = sunion b a.
Proof. apply asc_ext; try apply mkset_asc. intros x. rewrite !sunion_In. tauto. Qed.
Lemma sunion_assoc a b c : sunion a (sunion b c) = sunion (sunion a b) c.
Proof. apply asc_ext; try apply mkset_asc. intros x. rewrite !sunion_In. tauto. Qed.
Lemma pair_cost_comm a b s : pair_cost a b s = pair_cost b a s.
Proof. unfold pair_cost. now rewrite (sunion_comm a b). Qed.

(** the subscripts on the side of [y] of the edge between [x] and [y] *)
Definition sv (sub : list ((nat * nat) * nset)) (x y : nat) : nset := match get (x, y) sub with Some s => s | None => [] end.
Definition ov (n : nat) (opens : nset) sub (x y : nat) : nset :=
  if y <? n then sv sub x y else sinter (sv sub x y) (sunion (sv sub y x) opens).
Definition here (sub : list ((nat * nat) * nset)) (x y : nat) : Prop := get (x, y) sub <> None.
Lemma here_get sub x y : here sub x y -> get (x, y) sub = Some (sv sub x y).
Proof. unfold here, sv. destruct (get (x, y) sub); congruence. Qed.
Lemma open_at_ok n opens sub x y : here sub x y -> here sub y x -> open_at n opens sub x y = Ok (ov n opens sub x y).
Proof.
  intros H1 H2. unfold open_at, edge_sub, ov, is_leaf. rewrite (here_get H1). cbn [bind]. destruct (y <? n); auto.
  rewrite (here_get H2). reflexivity.
Qed.

(** ** the invariant *)
Definition sub_ok (n : nat) (leaf : list nset) (A : nat -> list nat) sub : Prop :=
  forall x y, In y (A x) -> here sub x y /\ asc (sv sub x y) /\ (y < n -> nth_error leaf y = Some (sv sub x y)) /\
    (forall c0 c1, Permutation (A y) [x; c0; c1] -> sv sub x y = sunion (sv sub y c0) (sv sub y c1)).
Definition ncv (n : nat) (opens : nset) sub (v p c0 c1 : nat) : Z :=
  pair_cost (ov n opens sub v c0) (ov n opens sub v c1) (ov n opens sub p v).
Definition nc_at (t : uct) (v : nat) : Prop :=
  forall p c0 c1, get v (u_par t) = Some p -> Permutation (nbs (u_adj t) v) [p; c0; c1] ->
  get v (u_ncost t) = Some (ncv (u_n t) (u_open t) (u_sub t) v p c0 c1).
Definition zsum (l : list Z) : Z := fold_right Z.add 0%Z l.
Definition inner (t : uct) (v : nat) : Prop := u_n t <= v /\ nbs (u_adj t) v <> [].
(** the graph, its parents and its subscripts *)
Record gok (t : uct) : Prop := {
  g_view : exists a b, view (u_n t) (nbs (u_adj t)) a b /\ (uid a, uid b) = u_root t;
  g_par : par_ok (nbs (u_adj t)) (fun x => get x (u_par t));
  g_root : get (fst (u_root t)) (u_par t) = Some (snd (u_root t)) /\ get (snd (u_root t)) (u_par t) = Some (fst (u_root t));
  g_sub : sub_ok (u_n t) (u_leaf t) (nbs (u_adj t)) (u_sub t)
}.
(** the totals of the costs *)
Record csum (t : uct) : Prop := {
  c_keys : NoDup (keys (u_ncost t));
  c_inner : forall v, In v (keys (u_ncost t)) -> inner t v;
  c_sum : u_cost t = (u_rcost t + zsum (map snd (u_ncost t)))%Z
}.
Definition rc_ok (t : uct) : Prop :=
  u_rcost t = pair_cost (ov (u_n t) (u_open t) (u_sub t) (fst (u_root t)) (snd (u_root t)))
                        (ov (u_n t) (u_open t) (u_sub t) (snd (u_root t)) (fst (u_root t))) (u_open t).
Record uok (t : uct) : Prop := { k_graph : gok t; k_sum : csum t; k_root : rc_ok t; k_node : forall v, nc_at t v }.

(** ** facts about the edges of a view *)
Lemma view_edge n A a b x y : view n A a b -> In y (A x) -> In x (A y) /\ x <> y.
Proof.
  intros V H. destruct (@reroot _ _ _ _ _ _ V H) as (a' & b' & V' & <- & <- & _). split; [|apply (@view_nodup_neq _ _ _ _ V')].
  destruct V' as (_ & Hb & _). now apply hang_in in Hb.
Qed.
Lemma view_leaf n A a b x : view n A a b -> A x <> [] -> (x < n -> exists p, A x = [p]) /\ (n <= x -> exists p c0 c1, Permutation (A x) [p; c0; c1]).
Proof.
  intros V H. destruct (A x) as [|y r] eqn:E; [congruence|]. assert (Hy : In y (A x)) by (rewrite E; left; auto).
  destruct (@reroot _ _ _ _ _ _ V Hy) as (a' & b' & (Ha & _) & <- & <- & _). rewrite <- E.
  destruct a' as [i|v l r']; simpl in *.
  - destruct Ha as [H1 H2]. split; [eauto|lia].
  - destruct Ha as (H1 & H2 & _). split; [lia|eauto].
Qed.
Lemma view_NoDup n A a b x : view n A a b -> NoDup (A x).
Proof.
  intros V. destruct (A x) as [|y r] eqn:E; [constructor|]. assert (Hy : In y (A x)) by (rewrite E; left; auto).
  destruct (@reroot _ _ _ _ _ _ V Hy) as (a' & b' & V' & <- & <- & _). rewrite <- E. destruct V' as (Ha & _ & ND & _). rewrite (hang_top _ _ _ _ Ha).
  apply NoDup_app_iff in ND as (Na & _ & D). destruct a' as [i|v l r']; simpl in *; [repeat constructor; auto|].
  inversion Na as [|? ? Nv ND]; subst. apply NoDup_app_iff in ND as (_ & _ & D2).
  pose proof (uid_in l). pose proof (uid_in r'). pose proof (uid_in b').
  constructor; [|constructor; [|constructor; auto; constructor]]; simpl.
  - intros [Q|[Q|[]]]; apply (D (uid b')); auto; right; apply in_app_iff; rewrite <- Q; auto.
  - intros [Q|[]]. apply (D2 (uid l)); auto. rewrite <- Q; auto.
Qed.

(** ** recomputing a cost *)
Lemma zsum_set (k : nat) c l : NoDup (keys l) ->
  zsum (map snd (set k c l)) = (zsum (map snd l) - match get k l with Some z => z | None => 0 end + c)%Z.
Proof.
  induction l as [|[k' z] r IH]; simpl; intros ND; [lia|]. inversion ND as [|? ? N1 N2]; subst.
  destruct (eqb_spec k k') as [->|N]; simpl; [lia|]. rewrite IH by auto. lia.
Qed.
Lemma node_cost_ok t v p c0 c1 : gok t -> get v (u_par t) = Some p -> Permutation (nbs (u_adj t) v) [p; c0; c1] ->
  node_cost t v = Ok (ncv (u_n t) (u_open t) (u_sub t) v p c0 c1).
Proof.
  intros G E P. destruct (g_view G) as (a & b & V & _). pose proof (view_NoDup v V) as ND. rewrite P in ND.
  unfold node_cost. rewrite E. inversion ND as [|? ? N1 ND1]; subst. simpl in N1.
  assert (H : forall c, In c [p; c0; c1] -> here (u_sub t) v c /\ here (u_sub t) c v).
  { intros c Hc. assert (Hc' : In c (nbs (u_adj t) v)) by (rewrite P; auto). split; [apply (g_sub G _ _ Hc')|].
    apply (g_sub G). apply (@view_edge _ _ _ _ _ _ V Hc'). }
  unfold ncv. destruct (@others_two (u_adj t) v p c0 c1) as [-> | ->]; auto.
  - rewrite !open_at_ok by (apply H; simpl; auto). reflexivity.
  - rewrite !open_at_ok by (apply H; simpl; auto). cbn [bind]. f_equal. apply pair_cost_comm.
Qed.
Lemma compute_node_cost_ok t v : gok t -> csum t -> inner t v ->
  exists t' c, compute_node_cost t v = Ok t' /\ t' = w_cost t (set v c (u_ncost t)) (u_rcost t) (u_cost t') /\ csum t' /\ nc_at t' v.
Proof.
  intros G C I. destruct (g_view G) as (a & b & V & _).
  destruct (proj2 (g_par G) v (proj2 I)) as (p & Ep & Ip).
  destruct (proj2 (@view_leaf _ _ _ _ _ V (proj2 I)) (proj1 I)) as (q & d0 & d1 & Pq).
  assert (exists c0 c1, Permutation (nbs (u_adj t) v) [p; c0; c1]) as (c0 & c1 & P).
  { rewrite Pq in Ip. destruct Ip as [<-|[<-|[<-|[]]]]; [eauto|exists q, d1; rewrite Pq; apply perm_swap|].
    exists q, d0. rewrite Pq. apply perm_trans with [q; d1; d0]; [apply perm_skip, perm_swap|apply perm_swap]. }
  unfold compute_node_cost. rewrite (@node_cost_ok _ _ _ _ _ G Ep P). cbn [bind]. set (c := ncv _ _ _ _ _ _ _).
  eexists. exists c. split; [reflexivity|]. cbn [w_cost u_cost]. split; [reflexivity|]. split.
  - destruct C as [C1 C2 C3]. split; cbn [w_cost u_ncost u_cost u_rcost].
    + now apply keys_set_NoDup.
    + intros w. rewrite keys_set_In. intros [->|H]; [exact I|exact (C2 w H)].
    + rewrite zsum_set by auto. rewrite C3. lia.
  - intros p' c0' c1' Ep' P'. cbn [w_cost u_n u_open u_sub u_par u_adj u_ncost] in *. rewrite get_set_eq. f_equal.
    pose proof (@node_cost_ok _ _ _ _ _ G Ep' P') as X. rewrite (@node_cost_ok _ _ _ _ _ G Ep P) in X. injection X as X. exact X.
Qed.
Lemma compute_root_cost_ok t : gok t -> csum t ->
  exists t', compute_root_cost t = Ok t' /\ t' = w_cost t (u_ncost t) (u_rcost t') (u_cost t') /\ csum t' /\ rc_ok t'.
Proof.
  intros G [C1 C2 C3]. destruct (g_view G) as (a & b & V & R). unfold compute_root_cost, rc_ok. rewrite <- R.
  destruct V as (Ha & Hb & _). apply hang_in in Ha, Hb.
  rewrite !open_at_ok by (apply (g_sub G); auto). cbn [bind]. eexists. split; [reflexivity|]. cbn [w_cost u_ncost u_rcost u_cost].
  split; [reflexivity|]. split; [|cbn [w_cost u_n u_open u_sub u_root]; rewrite <- R; reflexivity].
  split; cbn [w_cost u_ncost u_rcost u_cost]; auto. lia.
Qed.
Lemma gok_cost t x y z : gok t -> gok (w_cost t x y z).
Proof. intros [G1 G2 G3 G4]. split; auto. Qed.
