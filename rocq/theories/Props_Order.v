(** * Theorems about contraction orders (properties C21-C24).

    OrderSpec.v says what a complete order over a list of nodes is: every node is used exactly once as a
    leaf, every intermediate tensor is used exactly once, after the step that makes it, and the last
    step makes the final tensor.  The choices of external optimisers are arguments of the model
    (ModelOrder.v): [sp] gives the opt_einsum path of each step, [part] the blocks of the partitioner. *)
From Coq Require Import List Arith ZArith String Lia Bool Permutation.
From Verif Require Import Base Scalar NetSpec ModelArray ArrayProofs ModelTN TNInv TNOps TNSpec TNDelta TNDeltaValue ModelHist ModelContract ContractNet ContractExec
  ContractTemplate ContractMain ContractMerge ContractFlat ContractData ContractUser OrderSpec ModelOrder OrderProofs OrderProofs2 OrderProofs3
  OrderNet Examples ExamplesC Props_Contract.
Import ListNotations.
Set Implicit Arguments.
Open Scope nat_scope.

(** the path (0,1),(0,1),... *)
Definition std_path (n : nat) : opath := repeat [0; 1] (n - 1).
Definition std_sp (s : ostep) : opath := match fst s with [_] => [[0]] | l => std_path (List.length l) end.
Lemma std_valid n : 1 <= n -> valid_opath n (std_path n).
Proof.
  unfold std_path. induction n as [|n IH]; intros L; [lia|]. destruct n as [|n]; [simpl; auto|].
  replace (S (S n) - 1) with (S (S n - 1)) by lia. cbn [repeat valid_opath]. replace (S (S n) - 1) with (S n) by lia.
  split; [lia|]. split; [lia|]. split; [lia|]. apply IH. lia.
Qed.
Lemma std_pair n : pair_path (std_path n).
Proof. unfold std_path. induction (n - 1); constructor; auto. Qed.
Lemma std_good : good_paths std_sp.
Proof.
  intros [l z] N. unfold std_sp. cbn [fst] in *. destruct l as [|x [|y r]]; [congruence| |].
  - simpl. split; [auto|]. split; [discriminate|]. lia.
  - split; [apply std_valid; simpl; lia|]. split; [simpl; discriminate|]. intros _. apply std_pair.
Qed.

(** ** C21: order finders return valid orders *)

(** the base finder, for any arrangement of the nodes ('default' sorts them, 'vertical' sorts them by
    another key) and any paths opt_einsum returns for the two-operand steps *)
Theorem C21_base_finder_valid :
  forall (arrange : list name -> list name) (sp : ostep -> opath) (nodes : list name),
    Permutation (arrange nodes) nodes -> good_paths sp -> NoDup nodes -> unreserved nodes -> 2 <= List.length nodes ->
    exists o, finder_with arrange sp nodes = Ok o /\ complete_order nodes o hash /\ pairwise o.
Proof.
  intros arrange sp nodes P G Nd U L. apply finder_complete; auto.
  - apply U.
  - apply unreserved_readable; auto.
  - intros i _ _ I. destruct U as [_ U]. apply (U (NI i)); auto.
Qed.
Print Assumptions C21_base_finder_valid.
Theorem C21_default_finder_valid :
  forall (sp : ostep -> opath) (nodes : list name),
    good_paths sp -> NoDup nodes -> unreserved nodes ->
    exists o, default_finder sp nodes = Ok o /\
      (List.length nodes <= 1 -> o = []) /\
      (2 <= List.length nodes -> complete_order nodes o hash /\ pairwise o).
Proof.
  intros sp nodes G Nd U. destruct (@default_finder_valid sp nodes Nd U G) as (o & E & H1 & H2 & _). eauto.
Qed.
Print Assumptions C21_default_finder_valid.
Definition onodes : list name := [NS "c"; NI 3; NT [NS "*"; NS "e"; NI 0]; NS "a"]%string.
Lemma onodes_ok : NoDup onodes /\ unreserved onodes.
Proof.
  split; [apply nodupb_NoDup; vm_compute; reflexivity|]. split.
  - intros H. vm_compute in H. intuition discriminate.
  - intros v H. simpl in H. intuition discriminate.
Qed.
Example C21_default_somewhere :
  good_paths std_sp /\ NoDup onodes /\ unreserved onodes /\ 2 <= List.length onodes /\
  default_finder std_sp onodes = Ok [([NI 3; NT [NS "*"; NS "e"; NI 0]], hname 0);
    ([NS "a"; hname 0], hname 1); ([NS "c"; hname 1], hash)]%string.
Proof.
  split; [exact std_good|]. split; [apply onodes_ok|]. split; [apply onodes_ok|]. split; [simpl; lia|].
  vm_compute. reflexivity.
Qed.
(** the names '#' and ('#', i) are reserved: a network with a node of such a name gets an order that is
    not one (the step making ('#', 0) makes a tensor whose name is taken) *)
Theorem C21_reserved_names_refuted :
  ~ forall (sp : ostep -> opath) (nodes : list name), good_paths sp -> NoDup nodes -> 2 <= List.length nodes ->
      exists o, default_finder sp nodes = Ok o /\ complete_order nodes o hash.
Proof.
  intros H. destruct (H std_sp [hash; NS "a"; NS "b"]%string std_good) as (o & E & C).
  - apply nodupb_NoDup; vm_compute; reflexivity.
  - simpl; lia.
  - vm_compute in E. inversion E; subst; clear E. apply co_names in C.
    apply nodupb_NoDup in C. vm_compute in C. discriminate.
Qed.
Print Assumptions C21_reserved_names_refuted.

(** the finder that asks opt_einsum for a path for the whole network *)
Theorem C21_opt_einsum_finder_valid :
  forall (path : opath) (sp : ostep -> opath) (nodes : list name),
    valid_opath (List.length nodes) path -> pair_path path -> good_paths sp ->
    NoDup nodes -> unreserved nodes -> 2 <= List.length nodes ->
    exists o, oe_finder path sp nodes = Ok o /\ complete_order nodes o hash /\ pairwise o.
Proof.
  intros path sp nodes V P G Nd U L. apply oe_complete; auto.
  - apply U.
  - apply unreserved_readable; auto.
  - intros i _ I. destruct U as [_ U]. apply (U (NI i)); auto.
Qed.
Print Assumptions C21_opt_einsum_finder_valid.
Example C21_opt_einsum_somewhere :
  valid_opath (List.length onodes) [[3; 0]; [0; 2]; [1; 0]] /\ pair_path [[3; 0]; [0; 2]; [1; 0]] /\
  oe_finder [[3; 0]; [0; 2]; [1; 0]] std_sp onodes = Ok [([NS "a"; NS "c"], hname 1);
    ([NI 3; hname 1], hname 2); ([hname 2; NT [NS "*"; NS "e"; NI 0]], hash)]%string.
Proof. split; [simpl; lia|]. split; [repeat constructor|]. vm_compute. reflexivity. Qed.
(** opt_einsum may return steps with more than two operands (its docs allow it and optimize=False does
    so); the operands after the second are lost *)
Fixpoint valid_opath_any (n : nat) (p : opath) : Prop :=
  match p with
  | [] => n = 1
  | l :: r => NoDup l /\ l <> [] /\ Forall (fun i => i < n) l /\ valid_opath_any (n - List.length l + 1) r
  end.
Theorem C21_wide_path_refuted :
  ~ forall (path : opath) (sp : ostep -> opath) (nodes : list name),
      valid_opath_any (List.length nodes) path -> good_paths sp ->
      NoDup nodes -> unreserved nodes -> 2 <= List.length nodes ->
      exists o, oe_finder path sp nodes = Ok o /\ complete_order nodes o hash.
Proof.
  intros H. destruct (H [[0; 1; 2; 3]] std_sp onodes) as (o & E & C).
  - simpl. split; [repeat constructor; simpl; lia|]. split; [discriminate|]. split; [repeat constructor; simpl; lia|auto].
  - exact std_good.
  - apply onodes_ok.
  - apply onodes_ok.
  - simpl; lia.
  - vm_compute in E. inversion E; subst; clear E. apply co_once, Permutation_length in C. vm_compute in C. discriminate.
Qed.
Print Assumptions C21_wide_path_refuted.

(** the partitioning finder, whatever blocks the partitioner returns and whichever pairs of nodes the
    simplification merges first *)
Theorem C21_partition_finder_valid :
  forall (picks : list (nat * nat)) (part : list name -> option (list nat)) (K cutoff : nat) (sp : ostep -> opath)
         (nodes : list name),
    (forall ns ids, part ns = Some ids -> List.length ids = List.length ns /\ Forall (fun b => b < K) ids) ->
    good_picks picks (List.length nodes) -> good_paths sp -> nodes <> [] -> NoDup nodes -> unreserved nodes ->
    exists o, khp_finder picks part K cutoff sp nodes = Ok o /\ complete_order nodes o hash /\
      (S (List.length picks) < List.length nodes -> pairwise o).
Proof.
  intros picks part K cutoff sp nodes Po Gp G Ne Nd U. apply khp_finder_complete; auto.
  - apply U.
  - apply unreserved_readable; auto.
  - intros i _ I. destruct U as [_ U]. apply (U (NI i)); auto.
Qed.
Print Assumptions C21_partition_finder_valid.
(** blocks by parity of the position *)
Fixpoint parity {A} (b : nat) (l : list A) : list nat := match l with [] => [] | _ :: r => b :: parity (1 - b) r end.
Definition par_part (l : list name) : option (list nat) := if Nat.ltb 1 (List.length l) then Some (parity 0 l) else None.
Definition knodes : list name := map (fun i => NI (Z.of_nat i)) (seq 0 6).
Lemma parity_ok {A} (l : list A) : forall b, b <= 1 -> List.length (parity b l) = List.length l /\ Forall (fun b => b < 2) (parity b l).
Proof.
  induction l as [|x r IH]; intros b L; simpl; auto. destruct (IH (1 - b)) as [H1 H2]; [lia|]. split; auto. constructor; auto. lia.
Qed.
Lemma par_ok ns ids : par_part ns = Some ids -> List.length ids = List.length ns /\ Forall (fun b => b < 2) ids.
Proof.
  unfold par_part. destruct (Nat.ltb _ _); [|discriminate]. intros E. inversion E. apply parity_ok. lia.
Qed.
Example C21_partition_somewhere :
  (forall ns ids, par_part ns = Some ids -> List.length ids = List.length ns /\ Forall (fun b => b < 2) ids) /\
  good_picks [(1, 4)] (List.length knodes) /\ NoDup knodes /\ unreserved knodes /\
  khp_finder [(1, 4)] par_part 2 2 std_sp knodes = Ok
    [([NI 1; NI 4], hname 1); ([NI 0; hname 1], hname 3); ([hname 3; NI 3], hname 2); ([NI 2; NI 5], hname 4);
     ([hname 2; hname 4], hash)].
Proof.
  split; [exact par_ok|]. split; [simpl; lia|]. split; [apply nodupb_NoDup; vm_compute; reflexivity|].
  split; [split; [intros H; vm_compute in H; intuition discriminate|intros v H; simpl in H; intuition discriminate]|].
  vm_compute. reflexivity.
Qed.
(** when simplification merges everything, the order ends in a step with one operand, which the
    compiler (compiler.py:53) does not accept *)
Theorem C21_partition_pairwise_refuted :
  ~ forall (picks : list (nat * nat)) (part : list name -> option (list nat)) (K cutoff : nat) (sp : ostep -> opath)
           (nodes : list name),
    (forall ns ids, part ns = Some ids -> List.length ids = List.length ns /\ Forall (fun b => b < K) ids) ->
    good_picks picks (List.length nodes) -> good_paths sp -> 2 <= List.length nodes -> NoDup nodes -> unreserved nodes ->
    exists o, khp_finder picks part K cutoff sp nodes = Ok o /\ pairwise o.
Proof.
  intros H. destruct (H [(0, 1); (0, 2); (0, 1)] par_part 2 2 std_sp onodes par_ok) as (o & E & P).
  - simpl; lia.
  - exact std_good.
  - simpl; lia.
  - apply onodes_ok.
  - apply onodes_ok.
  - vm_compute in E. inversion E; subst; clear E. unfold pairwise in P. rewrite Forall_forall in P.
    specialize (P ([hname 3], hash)). simpl in P. assert (1 = 2); [|discriminate]. apply P. auto.
Qed.
Print Assumptions C21_partition_pairwise_refuted.

(** what a valid order is good for: its path pairs existing positions down to one tensor ... *)
Theorem C21_valid_orders_give_valid_paths :
  forall (nodes : list name) (o : gorder) (fin : name), complete_order nodes o fin -> pairwise o ->
    exists p, order_to_path nodes o = Ok p /\ valid_path (List.length nodes) p.
Proof. intros. eapply order_to_path_ok; eauto. Qed.
Print Assumptions C21_valid_orders_give_valid_paths.
(** ... and contracting the network along it gives its value *)
Theorem C21_found_order_contracts :
  forall (S : scalar) (n : tn (nd S)) (sp : ostep -> opath) (memory cost : Z),
    contractible Ok n -> no_idle_edge n -> fits_memory memory cost -> unreserved (keys (nodes n)) -> good_paths sp ->
    exists n' o r, complete_delta (copy_tn n) = (n', Ok tt) /\ default_finder sp (keys (nodes n')) = Ok o /\
      contract_net Ok memory cost (pairs_of o) [] n = Ok r /\ array_of_value n r.
Proof.
  intros S n sp memory cost C I M U G. apply finder_contracts; auto. intros l Nd Ul.
  destruct (@default_finder_valid sp l Nd Ul G) as (o & E & _ & _ & V). eauto.
Qed.
Print Assumptions C21_found_order_contracts.
Example C21_found_somewhere :
  contractible Ok cnet /\ no_idle_edge cnet /\ fits_memory 1024 1 /\ unreserved (keys (nodes cnet)) /\
  exists o, default_finder std_sp (keys (nodes (fst (complete_delta (copy_tn cnet))))) = Ok o /\ List.length o = 2 /\
    complete_order (keys (nodes (fst (complete_delta (copy_tn cnet))))) o hash /\ pairwise o.
Proof.
  split; [by_build|]. split; [apply no_idleb_ok; vm_compute; reflexivity|]. split; [exact small_memory|].
  assert (U : unreserved (keys (nodes (fst (complete_delta (copy_tn cnet)))))).
  { split; [intros H; vm_compute in H; intuition discriminate|intros v H; vm_compute in H; intuition discriminate]. }
  split; [split; [intros H; vm_compute in H; intuition discriminate|intros v H; vm_compute in H; intuition discriminate]|].
  destruct (@C21_default_finder_valid std_sp (keys (nodes (fst (complete_delta (copy_tn cnet)))))) as (o & E & _ & H); auto.
  - exact std_good.
  - apply nodupb_NoDup; vm_compute; reflexivity.
  - exists o. split; auto. split; [|apply H; vm_compute; lia]. vm_compute in E. inversion E. reflexivity.
Qed.

(** ** C22: OrderCounter gives new names *)

(** a counter made from [o] never gives a name [o] uses as an operand, nor one it gave before *)
Theorem C22_fresh_names :
  forall (o : gorder) (k : Z) (n : nat), counter_new o = Ok k ->
    NoDup (draws k n) /\ List.length (draws k n) = n /\ forall x, In x (draws k n) -> ~ In x (operands o).
Proof.
  intros o k n E. destruct (counter_new_ok _ E) as [K B]. destruct (draws_fresh n k) as [F1 F2].
  split; auto. split; [apply draws_length|]. intros x I J. destruct (F2 _ I) as (z & -> & Hz). apply B in J. lia.
Qed.
Print Assumptions C22_fresh_names.
(** for a complete order ending in '#', that is every name of the order *)
Theorem C22_fresh_for_complete_orders :
  forall (leaves : list name) (o : gorder) (k : Z) (n : nat), complete_order leaves o hash -> counter_new o = Ok k ->
    forall x, In x (draws k n) -> ~ In x (leaves ++ results o).
Proof.
  intros leaves o k n C E x I J. destruct (results_used _ C J) as [K| ->].
  - destruct (@C22_fresh_names o k n E) as (_ & _ & H). apply (H x); auto.
  - destruct (draws_fresh n k) as [_ F]. destruct (F _ I) as (z & Q & _). discriminate.
Qed.
Print Assumptions C22_fresh_for_complete_orders.
Definition oex : gorder := [([NS "a"; NS "b"], hname 5); ([hname 5; NS "c"], hname 2); ([hname 2; NS "d"], hash)]%string.
Example C22_fresh_somewhere :
  complete_order [NS "a"; NS "b"; NS "c"; NS "d"]%string oex hash /\ counter_new oex = Ok 5%Z /\
  draws 5 2 = [hname 6; hname 7].
Proof.
  split; [|vm_compute; auto]. apply red_complete; [|apply nodupb_NoDup; vm_compute; reflexivity|].
  - discriminate.
  - exists [NS "c"; NS "d"]%string. split; [apply Permutation_refl|]. exists [NS "d"]%string. split; [apply Permutation_refl|].
    exists []. split; apply Permutation_refl.
Qed.
(** a copy of a counter goes on from the same place *)
Theorem C22_copy_continues : forall (o : gorder) (k : Z), counter_new o = Ok k -> counter_copy k = Ok k.
Proof. intros o k E. destruct (counter_new_ok _ E) as [K _]. apply (counter_copy_ok K). Qed.
Print Assumptions C22_copy_continues.
(** names used only as results are not looked at, so in general a result can be given again *)
Theorem C22_result_names_refuted :
  ~ forall (o : gorder) (k : Z) (n : nat) (x : name), counter_new o = Ok k -> In x (draws k n) -> ~ In x (results o).
Proof.
  intros H. apply (H [([NS "a"; NS "b"], hname 1)]%string 0%Z 1 (hname 1)); vm_compute; auto.
Qed.
Print Assumptions C22_result_names_refuted.

(** ** C23: local optimisation keeps orders valid *)

(** flattening merges steps: the result is a complete order for the same leaves, and every tensor it
    still makes has the same leaves below it *)
Theorem C23_flatten_keeps_order :
  forall (size : name -> Z) (max_size offset : nat) (leaves : list name) (o : gorder) (fin : name),
    complete_order leaves o fin ->
    exists o', flatten_order size max_size offset o = Ok o' /\ complete_order leaves o' fin /\ same_below leaves o o'.
Proof. intros. apply flatten_ok; auto. Qed.
Print Assumptions C23_flatten_keeps_order.
Example C23_flatten_somewhere :
  complete_order [NS "a"; NS "b"; NS "c"; NS "d"]%string oex hash /\
  flatten_order (fun _ => 9%Z) 5 0 oex = Ok [([NS "d"; NS "c"; NS "a"; NS "b"]%string, hash)] /\
  flatten_order (fun _ => 9%Z) 4 0 oex = Ok [([NS "a"; NS "b"], hname 5); ([NS "d"; hname 5; NS "c"], hash)]%string.
Proof. split; [apply C22_fresh_somewhere|]. vm_compute. auto. Qed.
(** the final tensor has all leaves below it, each once *)
Theorem C23_final_tensor_has_all_leaves :
  forall (leaves : list name) (o : gorder) (fin : name), complete_order leaves o fin ->
    exists l, get fin (below leaves o) = Some l /\ Permutation l leaves.
Proof. intros leaves o fin C. exact (below_final C). Qed.
Print Assumptions C23_final_tensor_has_all_leaves.
(** flattening and resolving any number of times, with any sizes, offsets and paths *)
Theorem C23_optimize_keeps_order :
  forall (max_size : nat) (rounds : list ((name -> Z) * nat * (ostep -> opath))) (leaves : list name) (o : gorder),
    complete_order leaves o hash -> pairwise o -> Forall readable (operands o) ->
    Forall (fun r => good_paths (snd r)) rounds ->
    exists o', optimize rounds max_size o = Ok o' /\ complete_order leaves o' hash /\ pairwise o'.
Proof. intros. apply optimize_ok; auto. Qed.
Print Assumptions C23_optimize_keeps_order.
Example C23_optimize_somewhere :
  pairwise oex /\ Forall readable (operands oex) /\
  Forall (fun r : (name -> Z) * nat * (ostep -> opath) => good_paths (snd r)) [((fun _ => 9%Z), 0, std_sp); ((fun _ => 8%Z), 1, std_sp)] /\
  optimize [((fun _ => 9%Z), 0, std_sp); ((fun _ => 8%Z), 1, std_sp)] 4 oex = Ok
    [([NS "d"; NS "a"], hname 8); ([NS "b"; hname 8], hname 7); ([NS "c"; hname 7], hash)]%string.
Proof.
  split; [repeat constructor|]. split; [|split; [|vm_compute; reflexivity]].
  - repeat constructor; intros v Q; inversion Q; eauto.
  - constructor; [exact std_good|]. constructor; [exact std_good|]. constructor.
Qed.

(** ** C24: orders and contraction trees *)

(** building the tree of an order and reading its order back gives a complete order over the same
    leaves with the same steps, up to the order of steps and of the operands of a step *)
Theorem C24_tree_round_trip :
  forall (sub : name -> list nat) (leaves : list name) (o : gorder),
    complete_order leaves o hash -> pairwise o ->
    exists t o', from_order sub leaves o = Ok t /\ full_order t = Ok o' /\
      complete_order leaves o' hash /\ pairwise o' /\ same_steps o' o.
Proof.
  intros sub leaves o C Pw.
  assert (Ar : Forall (fun s => 2 <= List.length (fst s) <= 2) o).
  { eapply Forall_impl; [|apply Pw]. simpl. intros; lia. }
  destruct (from_order_ok sub C Ar) as (t & E & N & A & P & Ss).
  destruct (full_order_ok _ _ A) as (o' & E' & P' & R).
  assert (S' : same_steps o' o) by (eapply same_steps_perm_l; eauto).
  exists t, o'. split; auto. split; auto. split; [|split; auto].
  - apply red_complete.
    + intros ->. apply same_steps_results, Permutation_length in S'. destruct (co_last C) as (q & l & ->).
      rewrite results_app, app_length in S'. simpl in S'. lia.
    + eapply Permutation_NoDup; [|apply (co_names C)]. apply Permutation_app_head. symmetry. apply same_steps_results; auto.
    + rewrite N in R. eapply red_perm_l; eauto.
  - eapply same_steps_pairwise; eauto.
Qed.
Print Assumptions C24_tree_round_trip.
(** flipping branches of the tree, for any decisions, keeps it a tree of a complete order *)
Theorem C24_flip_keeps_order :
  forall (sub : name -> list nat) (dec : ctree -> option (list nat)) (leaves : list name) (o : gorder),
    complete_order leaves o hash -> pairwise o ->
    exists t t' o', from_order sub leaves o = Ok t /\ flip_branch dec (ct_size t) t = Ok t' /\ full_order t' = Ok o' /\
      complete_order leaves o' hash.
Proof.
  intros sub dec leaves o C Pw.
  assert (Ar : Forall (fun s => 2 <= List.length (fst s) <= 2) o).
  { eapply Forall_impl; [|apply Pw]. simpl. intros; lia. }
  destruct (from_order_ok sub C Ar) as (t & E & N & A & P & Ss).
  destruct (flip_ok dec t A (Nat.le_refl _)) as (t' & E' & A' & N' & P' & R').
  destruct (full_order_ok _ _ A') as (o' & Eo & Po & R).
  exists t, t', o'. split; auto. split; auto. split; auto.
  assert (Pr : Permutation (results o') (results o)).
  { transitivity (results (ct_steps t')); [apply Permutation_map; auto|]. rewrite R'. apply same_steps_results; auto. }
  apply red_complete.
  - intros ->. apply Permutation_length in Pr. destruct (co_last C) as (q & l & ->).
    rewrite results_app, app_length in Pr. simpl in Pr. lia.
  - eapply Permutation_NoDup; [|apply (co_names C)]. apply Permutation_app_head. symmetry. auto.
  - rewrite N', N in R. eapply red_perm_l; [|apply R]. rewrite P'. auto.
Qed.
Print Assumptions C24_flip_keeps_order.
Definition osub (x : name) : list nat :=
  match x with NS "a"%string => [0; 1] | NT [_; NI 5%Z] => [1; 2; 3] | NS "d"%string => [4; 5] | _ => [2] end.
Example C24_somewhere :
  complete_order [NS "a"; NS "b"; NS "c"; NS "d"]%string oex hash /\ pairwise oex /\
  (do t <- from_order osub [NS "a"; NS "b"; NS "c"; NS "d"]%string oex; full_order t) =
    Ok [([NS "b"; NS "a"], hname 5); ([NS "c"; hname 5], hname 2); ([hname 2; NS "d"], hash)]%string.
Proof. split; [apply C22_fresh_somewhere|]. split; [repeat constructor|]. vm_compute. reflexivity. Qed.
