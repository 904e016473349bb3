(** * The calls of the slicer on a tree whose edge data are out of date

    The slicer changes the subscripts of the operands and fills the edge data again one edge at a time.  What the
    calls do to the graph only depends on the graph, the parents, the root and on which edge data are present.
    [sim t g]: the tree [t] of the slicer and a tree [g] with right data agree on these. *)
From Coq Require Import List Arith ZArith Lia Bool Permutation Sorted.
From Verif Require Import Base PathSpec UctSpec ModelOrder ModelPath ModelOpt PathProofs OptProofs DPProofs DPProofs2 ModelUct UctProofs UctPath UctSwitch UctSwitch2 UctSwitch3 UctInit UctInit2 UctOps UctHist UctCost OrderSpec ModelTN ModelContract ModelScheme ModelSlice.
Import ListNotations.
Set Implicit Arguments.
Open Scope nat_scope.

Definition kin {V} (k : nat * nat) (l : list ((nat * nat) * V)) : bool := match get k l with Some _ => true | None => false end.
Definition samek {V W} (a : list ((nat * nat) * V)) (b : list ((nat * nat) * W)) : Prop := forall k, kin k a = kin k b.
Lemma kin_set {V} (k q : nat * nat) (v : V) l : kin k (set q v l) = (eqb k q || kin k l)%bool.
Proof. unfold kin. rewrite get_set. destruct (eqb k q); auto. Qed.
Lemma kin_del {V} (k q : nat * nat) (l : list ((nat * nat) * V)) : kin k (del q l) = (negb (eqb k q) && kin k l)%bool.
Proof. unfold kin. rewrite get_del. destruct (eqb k q); auto. Qed.
Lemma samek_set {V W} k (v : V) (w : W) a b : samek a b -> samek (set k v a) (set k w b).
Proof. intros S q. rewrite !kin_set, (S q). auto. Qed.
Lemma samek_del {V W} k (a : list ((nat * nat) * V)) (b : list ((nat * nat) * W)) : samek a b -> samek (del k a) (del k b).
Proof. intros S q. rewrite !kin_del, (S q). auto. Qed.
Lemma samek_get {V W} k (a : list ((nat * nat) * V)) (b : list ((nat * nat) * W)) w : samek a b -> get k b = Some w -> exists v, get k a = Some v.
Proof. intros S E. specialize (S k). unfold kin in S. rewrite E in S. destruct (get k a); [eauto|discriminate]. Qed.
Lemma samek_none {V W} k (a : list ((nat * nat) * V)) (b : list ((nat * nat) * W)) : samek a b -> get k b = None -> get k a = None.
Proof. intros S E. specialize (S k). unfold kin in S. rewrite E in S. destruct (get k a); [discriminate|auto]. Qed.

Record sim (t g : uct) : Prop := {
  sim_n : u_n t = u_n g;
  sim_adj : u_adj t = u_adj g;
  sim_par : u_par t = u_par g;
  sim_root : u_root t = u_root g;
  sim_leaf : length (u_leaf t) = length (u_leaf g);
  sim_sub : samek (u_sub t) (u_sub g)
}.
Lemma sim_refl t : sim t t. Proof. split; auto. intros k. auto. Qed.

Lemma pre_sim fuel n leaf leafg adj : length leaf = length leafg -> forall sub subg u v subg' sg, samek sub subg ->
  preprocess fuel n leafg adj subg u v = Ok (subg', sg) ->
  exists sub' s, preprocess fuel n leaf adj sub u v = Ok (sub', s) /\ samek sub' subg'.
Proof.
  intros L. induction fuel as [|fuel IH]; intros sub subg u v subg' sg S E; cbn [preprocess] in *.
  - destruct (get (u, v) subg) as [w|] eqn:G.
    + inversion E; subst. destruct (samek_get _ S G) as (s & ->). eauto.
    + rewrite (samek_none _ S G). destruct (is_leaf n v); [|discriminate].
      destruct (nth_error leafg v) as [s|] eqn:N; [|discriminate]. inversion E; subst.
      destruct (nth_error leaf v) as [s'|] eqn:N'; [eexists; eexists; split; [reflexivity|apply samek_set; auto]|].
      apply nth_error_None in N'. assert (v < length leafg) by (apply nth_error_Some; congruence). lia.
  - destruct (get (u, v) subg) as [w|] eqn:G.
    + inversion E; subst. destruct (samek_get _ S G) as (s & ->). eauto.
    + rewrite (samek_none _ S G). destruct (is_leaf n v).
      * destruct (nth_error leafg v) as [s|] eqn:N; [|discriminate]. inversion E; subst.
        destruct (nth_error leaf v) as [s'|] eqn:N'; [eexists; eexists; split; [reflexivity|apply samek_set; auto]|].
        apply nth_error_None in N'. assert (v < length leafg) by (apply nth_error_Some; congruence). lia.
      * destruct (others adj v u) as [|c0 [|c1 [|]]]; try discriminate.
        destruct (preprocess fuel n leafg adj subg v c0) as [[d0 s0]|] eqn:E0; [|discriminate]. cbn [bind fst snd] in E.
        destruct (preprocess fuel n leafg adj d0 v c1) as [[d1 s1]|] eqn:E1; [|discriminate]. cbn [bind fst snd] in E. inversion E; subst.
        destruct (IH _ _ _ _ _ _ S E0) as (b0 & r0 & -> & S0). cbn [bind fst snd].
        destruct (IH _ _ _ _ _ _ S0 E1) as (b1 & r1 & -> & S1). cbn [bind fst snd]. eexists; eexists. split; [reflexivity|]. apply samek_set; auto.
Qed.
Lemma edge_sub_sim sub subg u v s : samek sub subg -> edge_sub subg u v = Ok s -> exists s', edge_sub sub u v = Ok s'.
Proof. unfold edge_sub. intros S E. destruct (get (u, v) subg) eqn:G; [|discriminate]. destruct (samek_get _ S G) as (x & ->). eauto. Qed.
Lemma open_at_sim n o og sub subg u v s : samek sub subg -> open_at n og subg u v = Ok s -> exists s', open_at n o sub u v = Ok s'.
Proof.
  unfold open_at. intros S E. destruct (edge_sub subg u v) as [a|] eqn:A; [|discriminate]. destruct (edge_sub_sim _ _ S A) as (a' & ->). cbn [bind] in *.
  destruct (is_leaf n v); eauto. destruct (edge_sub subg v u) as [b|] eqn:B; [|discriminate]. destruct (edge_sub_sim _ _ S B) as (b' & ->). cbn [bind]. eauto.
Qed.
Lemma sim_wc t g x y z x' y' z' : sim t g -> sim (w_cost t x y z) (w_cost g x' y' z').
Proof. intros [A B C D E F]. split; auto. Qed.
Lemma sim_wc_l t g x y z : sim t g -> sim (w_cost t x y z) g.
Proof. intros [A B C D E F]. split; auto. Qed.
Lemma root_sim t g g' : sim t g -> compute_root_cost g = Ok g' -> exists t', compute_root_cost t = Ok t' /\ sim t' g'.
Proof.
  intros S E. unfold compute_root_cost in *. rewrite (sim_root S), (sim_n S). destruct (u_root g) as [u v].
  destruct (open_at (u_n g) (u_open g) (u_sub g) u v) as [a|] eqn:A; [|discriminate]. destruct (@open_at_sim _ (u_open t) _ _ _ _ _ _ (sim_sub S) A) as (a' & ->). cbn [bind] in *.
  destruct (open_at (u_n g) (u_open g) (u_sub g) v u) as [b|] eqn:B; [|discriminate]. destruct (@open_at_sim _ (u_open t) _ _ _ _ _ _ (sim_sub S) B) as (b' & ->). cbn [bind] in *.
  inversion E; subst. eexists. split; [reflexivity|]. apply sim_wc; auto.
Qed.
Lemma node_sim t g g' v : sim t g -> compute_node_cost g v = Ok g' -> exists t', compute_node_cost t v = Ok t' /\ sim t' g'.
Proof.
  intros S E. unfold compute_node_cost in *. destruct (node_cost g v) as [c|] eqn:C; [|discriminate]. cbn [bind] in E. inversion E; subst.
  assert (exists c', node_cost t v = Ok c') as (c' & ->).
  { unfold node_cost in *. rewrite (sim_par S), (sim_adj S), (sim_n S). destruct (get v (u_par g)) as [p|]; [|discriminate].
    destruct (others (u_adj g) v p) as [|c0 [|c1 [|]]]; try discriminate.
    destruct (open_at (u_n g) (u_open g) (u_sub g) v c0) as [a|] eqn:A; [|discriminate]. destruct (@open_at_sim _ (u_open t) _ _ _ _ _ _ (sim_sub S) A) as (a' & ->). cbn [bind] in *.
    destruct (open_at (u_n g) (u_open g) (u_sub g) v c1) as [b|] eqn:B; [|discriminate]. destruct (@open_at_sim _ (u_open t) _ _ _ _ _ _ (sim_sub S) B) as (b' & ->). cbn [bind] in *.
    destruct (open_at (u_n g) (u_open g) (u_sub g) p v) as [d|] eqn:D; [|discriminate]. destruct (@open_at_sim _ (u_open t) _ _ _ _ _ _ (sim_sub S) D) as (d' & ->). cbn [bind] in *. eauto. }
  cbn [bind]. eexists. split; [reflexivity|]. apply sim_wc; auto.
Qed.
Lemma half_sim t g g' u c v : sim t g -> switch_half g u c v = Ok g' -> exists t', switch_half t u c v = Ok t' /\ sim t' g'.
Proof.
  intros S E. unfold switch_half in *. destruct (edge_sub (u_sub g) u c) as [a|] eqn:A; [|discriminate]. destruct (edge_sub_sim _ _ (sim_sub S) A) as (a' & ->). cbn [bind] in *.
  destruct (edge_sub (u_sub g) c u) as [b|] eqn:B; [|discriminate]. destruct (edge_sub_sim _ _ (sim_sub S) B) as (b' & ->). cbn [bind] in *. inversion E; subst. clear E.
  eexists. split; [reflexivity|]. destruct S as [S1 S2 S3 S4 S5 S6]. split; cbn [w_graph u_n u_adj u_par u_root u_leaf u_sub]; auto.
  - rewrite S2; auto.
  - rewrite S3; auto.
  - rewrite S4; auto.
  - apply samek_del, samek_del, samek_set, samek_set. auto.
Qed.
Lemma switch_edges_sim t g g' u c0 v c1 : sim t g -> switch_edges g u c0 v c1 = Ok g' -> exists t', switch_edges t u c0 v c1 = Ok t' /\ sim t' g'.
Proof.
  intros S E. unfold switch_edges in *.
  destruct (switch_half g u c0 v) as [g1|] eqn:E1; [|discriminate]. destruct (half_sim _ _ _ S E1) as (t1 & -> & S1). cbn [bind] in *.
  destruct (switch_half g1 v c1 u) as [g2|] eqn:E2; [|discriminate]. destruct (half_sim _ _ _ S1 E2) as (t2 & -> & S2). cbn [bind] in *.
  rewrite (sim_n S2), (sim_adj S2).
  destruct (preprocess (2 * u_n g2) (u_n g2) (u_leaf g2) (u_adj g2) (del (v, u) (del (u, v) (u_sub g2))) v u) as [[d0 s0]|] eqn:E3; [|discriminate].
  destruct (@pre_sim _ _ (u_leaf t2) _ _ (sim_leaf S2) (del (v, u) (del (u, v) (u_sub t2))) _ _ _ _ _ (samek_del _ (samek_del _ (sim_sub S2))) E3) as (b0 & r0 & -> & K0). cbn [bind fst snd] in *.
  destruct (preprocess (2 * u_n g2) (u_n g2) (u_leaf g2) (u_adj g2) d0 u v) as [[d1 s1]|] eqn:E4; [|discriminate].
  destruct (@pre_sim _ _ (u_leaf t2) _ _ (sim_leaf S2) b0 _ _ _ _ _ K0 E4) as (b1 & r1 & -> & K1). cbn [bind fst snd] in *.
  set (g3 := w_graph g2 (u_adj g2) (u_par g2) (u_root g2) d1) in *.
  set (t3 := w_graph t2 (u_adj g2) (u_par t2) (u_root t2) b1).
  assert (S3 : sim t3 g3) by (destruct S2; split; auto).
  destruct (compute_node_cost g3 v) as [g4|] eqn:E5; [|discriminate]. destruct (node_sim _ S3 E5) as (t4 & -> & S4). cbn [bind] in *.
  destruct (compute_node_cost g4 u) as [g5|] eqn:E6; [|discriminate]. destruct (node_sim _ S4 E6) as (t5 & -> & S5). cbn [bind] in *.
  rewrite (sim_root S5). destruct (same_pair (u_root g5) (u, v)).
  - apply (root_sim S5 E).
  - inversion E; subst. eauto.
Qed.
Lemma branches_sim t g g' stem stem' i : sim t g -> switch_branches g stem i = Ok (g', stem') -> exists t', switch_branches t stem i = Ok (t', stem') /\ sim t' g'.
Proof.
  intros S E. unfold switch_branches in *. rewrite (sim_adj S). destruct (slice stem (i - 1) 4) as [|t0 [|u [|v [|t1 [|]]]]]; try discriminate.
  destruct (third (u_adj g) u t0 v) as [c0|]; [|discriminate]. cbn [bind] in *. destruct (third (u_adj g) v u t1) as [c1|]; [|discriminate]. cbn [bind] in *.
  destruct (switch_edges g u c0 v c1) as [g1|] eqn:E1; [|discriminate]. destruct (switch_edges_sim _ _ _ _ S E1) as (t1' & -> & S1). cbn [bind] in *. inversion E; subst. eauto.
Qed.
Lemma path_sim t g : sim t g -> get_path t = get_path g.
Proof. intros S. unfold get_path. rewrite (sim_n S), (sim_adj S), (sim_par S), (sim_root S). auto. Qed.

(** ** costs are recorded for all the inner nodes *)
Definition costed (t : uct) : Prop := forall v, In v (seq (u_n t) (u_n t - 2)) -> In v (keys (u_ncost t)).
(** the graph lists every node once *)
Definition listed (t : uct) : Prop := NoDup (keys (u_adj t)).
Lemma add_edge_keys u v (adj : list (nat * list nat)) : NoDup (Base.keys adj) -> NoDup (Base.keys (ModelUct.add_edge u v adj)).
Proof. intros N. unfold ModelUct.add_edge, add_nb. repeat apply keys_set_NoDup. auto. Qed.
Lemma del_edge_keys u v (adj : list (nat * list nat)) : NoDup (Base.keys adj) -> NoDup (Base.keys (ModelUct.del_edge u v adj)).
Proof. intros N. unfold del_edge, del_nb. repeat apply keys_set_NoDup. auto. Qed.
Lemma half_listed t t' u c v : switch_half t u c v = Ok t' -> listed t -> listed t'.
Proof.
  unfold switch_half. destruct (edge_sub _ u c); [|discriminate]. cbn [bind]. destruct (edge_sub _ c u); [|discriminate]. cbn [bind]. intros E N. inversion E; subst.
  apply del_edge_keys, add_edge_keys. auto.
Qed.
Lemma node_adj t t' v : compute_node_cost t v = Ok t' -> u_adj t' = u_adj t.
Proof. unfold compute_node_cost. destruct (node_cost t v); [|discriminate]. cbn [bind]. intros E. inversion E; auto. Qed.
Lemma root_adj t t' : compute_root_cost t = Ok t' -> u_adj t' = u_adj t.
Proof.
  unfold compute_root_cost. destruct (u_root t) as [u v]. destruct (open_at _ _ _ u v); [|discriminate]. cbn [bind]. destruct (open_at _ _ _ v u); [|discriminate]. cbn [bind].
  intros E. inversion E; auto.
Qed.
Lemma switch_edges_listed t t' u c0 v c1 : switch_edges t u c0 v c1 = Ok t' -> listed t -> listed t'.
Proof.
  unfold switch_edges. intros E N.
  destruct (switch_half t u c0 v) as [t1|] eqn:E1; [|discriminate]. cbn [bind] in E. apply half_listed in E1; auto.
  destruct (switch_half t1 v c1 u) as [t2|] eqn:E2; [|discriminate]. cbn [bind] in E. apply half_listed in E2; auto.
  destruct (preprocess _ _ _ _ _ v u) as [d|]; [|discriminate]. cbn [bind] in E. destruct (preprocess _ _ _ _ _ u v) as [d'|]; [|discriminate]. cbn [bind] in E.
  destruct (compute_node_cost _ v) as [t4|] eqn:E4; [|discriminate]. cbn [bind] in E. apply node_adj in E4. cbn [w_graph u_adj] in E4.
  destruct (compute_node_cost t4 u) as [t5|] eqn:E5; [|discriminate]. cbn [bind] in E. apply node_adj in E5. unfold listed.
  destruct (same_pair _ _); [apply root_adj in E; rewrite E|inversion E; subst]; rewrite E5, E4; auto.
Qed.
Lemma branches_listed t t' stem stem' i : switch_branches t stem i = Ok (t', stem') -> listed t -> listed t'.
Proof.
  unfold switch_branches. destruct (slice stem (i - 1) 4) as [|t0 [|u [|v [|t1 [|]]]]]; try discriminate.
  destruct (third (u_adj t) u t0 v) as [c0|]; [|discriminate]. cbn [bind]. destruct (third (u_adj t) v u t1) as [c1|]; [|discriminate]. cbn [bind].
  destruct (switch_edges t u c0 v c1) as [g1|] eqn:E1; [|discriminate]. cbn [bind]. intros E N. inversion E; subst. eapply switch_edges_listed; eauto.
Qed.
Lemma build_listed p : forall adj par ops k r, build adj par ops k p = Ok r -> NoDup (keys adj) -> NoDup (keys (fst (fst r))).
Proof.
  induction p as [|s p IH]; cbn [build]; intros adj par ops k r E N; [inversion E; subst; auto|].
  destruct s as [|i [|j [|]]]; try discriminate. destruct (pop_nth _ ops) as [a|]; [|discriminate]. cbn [bind] in E. destruct (pop_nth _ (snd a)) as [b|]; [|discriminate]. cbn [bind] in E.
  eapply IH; [exact E|]. apply add_edge_keys, add_edge_keys. auto.
Qed.
Lemma fold_node_adj l : forall t t', foldM compute_node_cost t l = Ok t' -> u_adj t' = u_adj t.
Proof.
  induction l as [|v r IH]; cbn [foldM]; intros t t' E; [inversion E; auto|].
  destruct (compute_node_cost t v) as [t1|] eqn:E1; [|discriminate]. cbn [bind] in E. apply node_adj in E1. apply IH in E. congruence.
Qed.
Lemma init_listed lhs rhs p t : uct_init lhs rhs p = Ok t -> listed t.
Proof.
  unfold uct_init. destruct (length lhs =? 1); [discriminate|]. destruct (build _ _ _ _ _) as [[[adj par] ops]|] eqn:B; [|discriminate]. cbn [bind].
  apply build_listed in B; [|unfold keys; rewrite map_map, map_id; apply seq_NoDup]. cbn [fst] in B.
  destruct ops as [|u [|v [|]]]; try discriminate. destruct (foldM _ _ _) as [sub|]; [|discriminate]. cbn [bind].
  destruct (compute_root_cost _) as [t1|] eqn:E1; [|discriminate]. cbn [bind]. intros E. apply root_adj in E1. cbn [u_adj] in E1.
  apply fold_node_adj in E. unfold listed. rewrite E, E1. apply add_edge_keys. auto.
Qed.
Lemma keys_set_incl (k : nat) (z : Z) l : incl (keys l) (keys (set k z l)).
Proof. intros x. rewrite keys_set. destruct (has k l); auto. intros H. apply in_or_app. auto. Qed.
Lemma node_keys t t' v : compute_node_cost t v = Ok t' -> u_n t' = u_n t /\ incl (v :: keys (u_ncost t)) (keys (u_ncost t')).
Proof.
  unfold compute_node_cost. destruct (node_cost t v); [|discriminate]. cbn [bind]. intros E. inversion E; subst. cbn [w_cost u_ncost u_n]. split; auto.
  intros x [<-|H]; [|apply keys_set_incl; auto]. rewrite keys_set. destruct (has v (u_ncost t)) eqn:M; [apply has_In; auto|apply in_or_app; simpl; auto].
Qed.
Lemma root_keys t t' : compute_root_cost t = Ok t' -> u_n t' = u_n t /\ u_ncost t' = u_ncost t.
Proof.
  unfold compute_root_cost. destruct (u_root t) as [u v]. destruct (open_at _ _ _ u v); [|discriminate]. cbn [bind]. destruct (open_at _ _ _ v u); [|discriminate]. cbn [bind].
  intros E. inversion E; subst. auto.
Qed.
Lemma half_keys t t' u c v : switch_half t u c v = Ok t' -> u_n t' = u_n t /\ u_ncost t' = u_ncost t.
Proof.
  unfold switch_half. destruct (edge_sub _ u c); [|discriminate]. cbn [bind]. destruct (edge_sub _ c u); [|discriminate]. cbn [bind]. intros E. inversion E; subst. auto.
Qed.
Lemma switch_edges_keys t t' u c0 v c1 : switch_edges t u c0 v c1 = Ok t' -> u_n t' = u_n t /\ incl (keys (u_ncost t)) (keys (u_ncost t')).
Proof.
  unfold switch_edges. intros E.
  destruct (switch_half t u c0 v) as [t1|] eqn:E1; [|discriminate]. cbn [bind] in E. apply half_keys in E1 as [N1 K1].
  destruct (switch_half t1 v c1 u) as [t2|] eqn:E2; [|discriminate]. cbn [bind] in E. apply half_keys in E2 as [N2 K2].
  destruct (preprocess _ _ _ _ _ v u) as [d|]; [|discriminate]. cbn [bind] in E. destruct (preprocess _ _ _ _ _ u v) as [d'|]; [|discriminate]. cbn [bind] in E.
  destruct (compute_node_cost _ v) as [t4|] eqn:E4; [|discriminate]. cbn [bind] in E. apply node_keys in E4 as [N4 K4]. cbn [w_graph u_n u_ncost] in N4, K4.
  destruct (compute_node_cost t4 u) as [t5|] eqn:E5; [|discriminate]. cbn [bind] in E. apply node_keys in E5 as [N5 K5].
  assert (H : u_n t5 = u_n t /\ incl (keys (u_ncost t)) (keys (u_ncost t5))).
  { split; [congruence|]. intros x I. apply K5. right. apply K4. right. rewrite K2, K1. auto. }
  destruct (same_pair _ _); [|inversion E; subst; auto]. apply root_keys in E as [N6 K6]. rewrite N6, K6. auto.
Qed.
Lemma branches_keys t t' stem stem' i : switch_branches t stem i = Ok (t', stem') -> costed t -> costed t'.
Proof.
  unfold switch_branches. destruct (slice stem (i - 1) 4) as [|t0 [|u [|v [|t1 [|]]]]]; try discriminate.
  destruct (third (u_adj t) u t0 v) as [c0|]; [|discriminate]. cbn [bind]. destruct (third (u_adj t) v u t1) as [c1|]; [|discriminate]. cbn [bind].
  destruct (switch_edges t u c0 v c1) as [g1|] eqn:E1; [|discriminate]. cbn [bind]. intros E. inversion E; subst. apply switch_edges_keys in E1 as [N K].
  intros C x I. apply K, C. rewrite <- N. auto.
Qed.
Lemma fold_node_keys l : forall t t', foldM compute_node_cost t l = Ok t' -> u_n t' = u_n t /\ incl (l ++ keys (u_ncost t)) (keys (u_ncost t')).
Proof.
  induction l as [|v r IH]; cbn [foldM]; intros t t' E; [inversion E; subst; split; auto; intros x; auto|].
  destruct (compute_node_cost t v) as [t1|] eqn:E1; [|discriminate]. cbn [bind] in E. apply node_keys in E1 as [N1 K1]. apply IH in E as [N2 K2].
  split; [congruence|]. intros x I. apply K2. apply in_or_app. simpl in I. destruct I as [<-|I]; [right; apply K1; simpl; auto|].
  apply in_app_iff in I as [I|I]; auto. right. apply K1. simpl; auto.
Qed.
Lemma init_costed lhs rhs p t : uct_init lhs rhs p = Ok t -> costed t.
Proof.
  unfold uct_init. destruct (length lhs =? 1); [discriminate|]. destruct (build _ _ _ _ _) as [[[adj par] ops]|]; [|discriminate]. cbn [bind].
  destruct ops as [|u [|v [|]]]; try discriminate. destruct (foldM _ _ _) as [sub|]; [|discriminate]. cbn [bind].
  destruct (compute_root_cost _) as [t1|] eqn:E1; [|discriminate]. cbn [bind]. intros E. apply root_keys in E1 as [N1 K1]. cbn [u_n u_ncost] in N1.
  apply fold_node_keys in E as [N2 K2]. intros x I. apply K2. apply in_or_app. left. rewrite N2, N1 in I. auto.
Qed.
