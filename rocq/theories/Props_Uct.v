(** * Undirected contraction trees: C25 and C44.

    [uct_init lhs rhs p] is UndirectedContractionTree(equation, path); [reach lhs rhs p (t, stem)] says that [t] and the
    stem [stem] result from that constructor by any sequence of calls with arguments that fit the tree ([allowed]). *)
From Coq Require Import List Arith ZArith Lia Bool Permutation Sorted.
From Verif Require Import Base PathSpec UctSpec ModelOrder ModelPath ModelOpt PathProofs OptProofs DPProofs DPProofs2 ModelUct UctProofs UctPath UctSwitch UctSwitch2 UctSwitch3 UctInit UctInit2 UctOps UctHist UctCost.
Import ListNotations.
Open Scope nat_scope.

(** ** C25: the constructor accepts every valid pairwise path and keeps its tree *)
Theorem C25_init_keeps_the_path : forall lhs rhs p,
  2 <= length lhs -> valid_lin (length lhs) p -> pairwise p ->
  exists t q T T', uct_init lhs rhs p = Ok t /\ get_path t = Ok q /\ valid_lin (length lhs) q /\ pairwise q /\
    lin_tree (length lhs) p = Some T /\ lin_tree (length lhs) q = Some T' /\ swapped T T'.
Proof.
  intros lhs rhs p L V P. destruct (@init_ok lhs rhs p L V P) as (t & a & b & T & E & U & F1 & F2 & F3 & Vw & R & LT & SW & _).
  destruct (g_root (k_graph U)) as [R1 R2]. rewrite R in R1, R2. cbn [fst snd] in R1, R2.
  destruct (@get_path_ok t a b Vw (eq_sym R) (g_par (k_graph U)) R1 R2) as (q & T' & E' & Q1 & Q2 & Q3 & Q4). rewrite F1 in *.
  exists t, q, T, T'. repeat (split; auto). eapply swapped_trans; [apply swapped_sym; exact SW|exact Q4].
Qed.
Print Assumptions C25_init_keeps_the_path.

(** ** C25: after any calls the path read off the tree is valid, and it is the tree seen from the root edge *)
Theorem C25_paths_valid : forall lhs rhs p t stem,
  2 <= length lhs -> valid_lin (length lhs) p -> pairwise p -> reach lhs rhs p (t, stem) ->
  exists q T, get_path t = Ok q /\ valid_lin (length lhs) q /\ pairwise q /\ lin_tree (length lhs) q = Some T /\
    seen_from (length lhs) (nbs (u_adj t)) (fst (u_root t)) (snd (u_root t)) T.
Proof.
  intros lhs rhs p t stem L V P R. destruct (@reach_ok lhs rhs p L V P _ R) as (U & (F1 & _) & _). cbn [fst] in *.
  destruct (uok_path U) as (q & T & E & Q1 & Q2 & Q3 & Q4 & _). rewrite F1 in *. exists q, T. auto.
Qed.
Print Assumptions C25_paths_valid.

(** ** C25: no allowed call fails, and the stem stays a path of the tree *)
Theorem C25_calls_succeed : forall lhs rhs p t stem o,
  2 <= length lhs -> valid_lin (length lhs) p -> pairwise p -> reach lhs rhs p (t, stem) -> allowed t stem o ->
  exists t' stem', do_uop (t, stem) o = Ok (t', stem') /\ reach lhs rhs p (t', stem') /\ simple_path (nbs (u_adj t')) stem'.
Proof.
  intros lhs rhs p t stem o L V P R H. destruct (@reach_ok lhs rhs p L V P _ R) as (U & _ & S). cbn [fst snd] in *.
  destruct (@op_ok t stem o U S H) as (t' & stem' & E & _ & _ & S'). exists t', stem'. split; auto. split; auto. eapply reach_op; eauto.
Qed.
Print Assumptions C25_calls_succeed.

(** ** C25: the root can be walked to every edge; the path read off there is valid and denotes the same unrooted tree *)
Theorem C25_any_root : forall lhs rhs p t stem x y,
  2 <= length lhs -> valid_lin (length lhs) p -> pairwise p -> reach lhs rhs p (t, stem) -> In y (nbs (u_adj t) x) ->
  exists t' q q' T T', walk t t' /\ u_adj t' = u_adj t /\ (u_root t' = (x, y) \/ u_root t' = (y, x)) /\
    get_path t = Ok q /\ get_path t' = Ok q' /\ valid_lin (length lhs) q' /\ pairwise q' /\
    lin_tree (length lhs) q = Some T /\ lin_tree (length lhs) q' = Some T' /\ rerooted T T'.
Proof.
  intros lhs rhs p t stem x y L V P R I. destruct (@reach_ok lhs rhs p L V P _ R) as (U & (F1 & _) & _). cbn [fst] in *.
  destruct (@walk_to t x y U I) as (t' & W & U' & EA & (G1 & _) & Rt).
  destruct (uok_path U) as (q & T & E & Q1 & Q2 & Q3 & Q4 & a & b & Va & _ & Sa). destruct (uok_path U') as (q' & T' & E' & Q1' & Q2' & Q3' & Q4' & a' & b' & Va' & _ & Sa').
  rewrite EA, G1 in Va'. rewrite G1, F1 in *. exists t', q, q', T, T'. repeat (split; auto).
  eapply rr_trans; [apply rr_swap, swapped_sym; exact Sa|]. eapply rr_trans; [eapply view_rerooted; eauto|]. apply rr_swap. exact Sa'.
Qed.
Print Assumptions C25_any_root.

(** ** C25: switch_edges exchanges exactly the two named edges; on paths: the two branches trade places *)
Theorem C25_switch_edges : forall lhs rhs p t stem u c0 v c1,
  2 <= length lhs -> valid_lin (length lhs) p -> pairwise p -> reach lhs rhs p (t, stem) ->
  In c0 (nbs (u_adj t) u) -> In v (nbs (u_adj t) u) -> In c1 (nbs (u_adj t) v) -> c0 <> v -> c1 <> u ->
  exists t' q q' T T' S0 S1, switch_edges t u c0 v c1 = Ok t' /\ edges_exchanged (nbs (u_adj t)) (nbs (u_adj t')) u c0 v c1 /\
    behind (length lhs) (nbs (u_adj t)) u c0 S0 /\ behind (length lhs) (nbs (u_adj t)) v c1 S1 /\
    get_path t = Ok q /\ get_path t' = Ok q' /\ lin_tree (length lhs) q = Some T /\ lin_tree (length lhs) q' = Some T' /\
    exchanged S0 S1 T T'.
Proof.
  intros lhs rhs p t stem u c0 v c1 L V P R H0 Hv H1 N0 N1. destruct (@reach_ok lhs rhs p L V P _ R) as (U & (F1 & _) & _). cbn [fst] in *.
  destruct (@switch_path t u c0 v c1 U H0 Hv H1 N0 N1) as (t' & E & U' & (G1 & _) & X & C & Z & D & Y & V1 & V2 & <- & <-).
  destruct (uok_path U) as (q & T & Eq & Q1 & Q2 & Q3 & Q4 & a & b & Va & _ & Sa). destruct (uok_path U') as (q' & T' & Eq' & Q1' & Q2' & Q3' & Q4' & a' & b' & Va' & _ & Sa').
  rewrite G1 in Va'. rewrite G1, F1 in *. exists t', q, q', T, T', (shape C), (shape D). split; auto. split; auto.
  split; [apply hang_branch; destruct V1 as (Hx & _); cbn in Hx; tauto|]. split; [apply hang_branch; destruct V1 as (_ & Hx & _); cbn in Hx; tauto|].
  repeat (split; auto). exists (shape Z), (shape Y). split.
  - eapply rr_trans; [apply rr_swap, swapped_sym; exact Sa|]. apply (@view_rerooted _ _ _ _ _ _ Va V1).
  - eapply rr_trans; [apply rr_swap, swapped_sym; exact Sa'|]. apply (@view_rerooted _ _ _ _ _ _ Va' V2).
Qed.
Print Assumptions C25_switch_edges.

(** ** C25: unmerge_branches undoes merge_branches *)
Theorem C25_unmerge_undoes_merge : forall lhs rhs p t stem i,
  2 <= length lhs -> valid_lin (length lhs) p -> pairwise p -> reach lhs rhs p (t, stem) -> 1 <= i -> i + 2 < length stem ->
  exists t' stem' c0 t'', merge_branches t stem i = Ok (t', stem', c0) /\ unmerge_branches t' stem' i (Some c0) = Ok (t'', stem) /\
    length stem = S (length stem') /\ forall x y, In y (nbs (u_adj t'') x) <-> In y (nbs (u_adj t) x).
Proof.
  intros lhs rhs p t stem i L V P R H1 H2. destruct (@reach_ok lhs rhs p L V P _ R) as (U & _ & S). cbn [fst snd] in *.
  destruct (@split_at stem (i - 1) 4) as (s1 & m & s2 & -> & L1 & L2); [lia|]. destruct m as [|t0 [|u [|v [|t1 [|]]]]]; try discriminate. simpl app in *.
  destruct (@merge_ok t U s1 t0 u v t1 s2 S) as (t1' & c1 & E1 & _).
  destruct (@merge_unmerge t s1 t0 u v t1 s2 U S) as (t' & stem' & c0 & t'' & M1 & M2 & M3). replace (Datatypes.S (length s1)) with i in * by lia.
  exists t', stem', c0, t''. split; auto. split; auto. split; auto. rewrite E1 in M1. inversion M1; subst. rewrite !app_length. simpl. lia.
Qed.
Print Assumptions C25_unmerge_undoes_merge.

(** ** C44: the recorded cost is the cost of the path that get_path returns *)
Theorem C44_cost_of_the_path : forall lhs rhs p t stem,
  2 <= length lhs -> valid_lin (length lhs) p -> pairwise p -> reach lhs rhs p (t, stem) ->
  exists q T, get_path t = Ok q /\ lin_tree (length lhs) q = Some T /\ u_cost t = total_flops (fun i => nth i lhs []) rhs T.
Proof.
  intros lhs rhs p t stem L V P R. destruct (@reach_ok lhs rhs p L V P _ R) as (U & (F1 & F2 & F3) & _). cbn [fst] in *.
  destruct (uok_path U) as (q & T & E & Q1 & Q2 & Q3 & Q4 & a & b & Va & Ra & Sa). rewrite F1 in Q3. exists q, T. split; auto. split; auto.
  rewrite (@cost_ok t lhs rhs U F2 F3 a b Va Ra). apply total_swapped. auto.
Qed.
Print Assumptions C44_cost_of_the_path.

(** ** a concrete tree meets the hypotheses of all of them *)
Definition ex_lhs : list (list nat) := [[0; 1]; [1; 2]; [2; 3]; [3; 4; 5]; [4; 0]].
Definition ex_rhs : list nat := [5].
Definition ex_path : lpath := [[0; 1]; [3; 0]; [0; 1]; [1; 0]].
Definition ex_tree : uct := match uct_init ex_lhs ex_rhs ex_path with Ok t => t | Err _ => Uct 0 [] [] [] [] (0, 0) [] [] 0 0 end.
Lemma ex_start : valid_lin (length ex_lhs) ex_path /\ pairwise ex_path /\ uct_init ex_lhs ex_rhs ex_path = Ok ex_tree.
Proof.
  split; [|split; [repeat constructor|vm_compute; reflexivity]]. cbn. repeat split; try (repeat constructor; simpl; lia || intuition lia); discriminate.
Qed.
Example C25_init_somewhere : exists t q, uct_init ex_lhs ex_rhs ex_path = Ok t /\ get_path t = Ok q /\ q <> ex_path /\ length q = 4.
Proof. exists ex_tree. eexists. split; [apply ex_start|]. split; [vm_compute; reflexivity|]. split; [discriminate|reflexivity]. Qed.
(** a stem, an exchange of branches, a merge, a step of the root *)
Definition ex_stem : list nat := [0; 5; 6; 7; 3].
Lemma ex_stem_ok : simple_path (nbs (u_adj ex_tree)) ex_stem.
Proof.
  apply simple_chain. split; [|vm_compute; tauto]. repeat constructor; simpl; intuition congruence.
Qed.
Example C25_reach_somewhere : exists t stem q, reach ex_lhs ex_rhs ex_path (t, stem) /\ get_path t = Ok q /\ get_path ex_tree <> Ok q /\ stem <> ex_stem.
Proof.
  pose (s1 := match do_uop (ex_tree, ex_stem) (UBranches 1) with Ok s => s | _ => (ex_tree, []) end).
  pose (s2 := match do_uop s1 (UMerge 1) with Ok s => s | _ => (ex_tree, []) end).
  exists (fst s2), (snd s2). eexists. split; [|split; [vm_compute; reflexivity|split; vm_compute; discriminate]].
  apply reach_op with (t := fst s1) (stem := snd s1) (o := UMerge 1).
  - apply reach_op with (t := ex_tree) (stem := ex_stem) (o := UBranches 1).
    + apply reach_init; [apply ex_start|apply ex_stem_ok].
    + vm_compute. split; repeat constructor.
    + vm_compute. reflexivity.
  - vm_compute. split; repeat constructor.
  - vm_compute. reflexivity.
Qed.
Example C25_switch_somewhere : exists u c0 v c1, In c0 (nbs (u_adj ex_tree) u) /\ In v (nbs (u_adj ex_tree) u) /\ In c1 (nbs (u_adj ex_tree) v) /\ c0 <> v /\ c1 <> u.
Proof. exists 5, 0, 6, 2. vm_compute. intuition discriminate. Qed.
Example C44_somewhere : u_cost ex_tree = 80%Z /\ exists t' stem', do_uop (ex_tree, ex_stem) (UBranches 1) = Ok (t', stem') /\ u_cost t' = 96%Z.
Proof. split; [vm_compute; reflexivity|]. eexists. eexists. split; [vm_compute; reflexivity|vm_compute; reflexivity]. Qed.

(** ** the root cannot be stepped from an end that is an operand: the call fails although the new edge exists *)
Theorem C25_step_from_operand_refuted : exists lhs rhs p t u v, 2 <= length lhs /\ valid_lin (length lhs) p /\ pairwise p /\
  uct_init lhs rhs p = Ok t /\ u_root t = (u, v) /\ In v (nbs (u_adj t) u) /\ step_root t u v = Err AssertionError.
Proof.
  exists [[0]; [0]; [0]], [], [[1; 2]; [0; 1]]. eexists. exists 0, 3. split; [repeat constructor|]. split.
  { cbn. repeat split; try (repeat constructor; simpl; lia || intuition lia); discriminate. }
  split; [repeat constructor|]. split; [vm_compute; reflexivity|]. vm_compute. auto.
Qed.
Print Assumptions C25_step_from_operand_refuted.
