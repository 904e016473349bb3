(** * Theorems about contraction paths (properties C26-C28).

    PathSpec.v says what a valid path is in its two encodings and which contraction tree it denotes.
    [zpath p] is the path [p] with its positions as Python integers. *)
From Coq Require Import List Arith ZArith NArith Lia Bool Permutation.
From Verif Require Import Base PathSpec ModelOrder ModelPath ModelOpt ModelDP PathProofs OptProofs OptProofs2 DPProofs DPProofs2 DPProofs3.
Import ListNotations.
Set Implicit Arguments.
Open Scope nat_scope.

(** ** C26: SSA and linear paths are inverse encodings *)
Theorem C26_linear_to_ssa_and_back :
  forall (n : nat) (p : lpath), valid_lin n p -> p <> [] ->
    exists s, linear_to_ssa p = Ok s /\ valid_ssa n s /\ ssa_to_linear s = Ok (zpath p) /\
              exists t, lin_tree n p = Some t /\ ssa_tree n s = Some t.
Proof. exact linear_ssa_linear. Qed.
Print Assumptions C26_linear_to_ssa_and_back.
Theorem C26_ssa_to_linear_and_back :
  forall (n : nat) (s : lpath), valid_ssa n s -> s <> [] ->
    exists p, ssa_to_linear s = Ok (zpath p) /\ valid_lin n p /\ linear_to_ssa p = Ok s.
Proof. exact ssa_linear_ssa. Qed.
Print Assumptions C26_ssa_to_linear_and_back.
Definition wide_path : lpath := [[3; 0]; [2]; [1; 0; 2]].
Lemma wide_valid : valid_lin 4 wide_path.
Proof.
  simpl. split; [discriminate|]. split; [repeat constructor; simpl; intuition discriminate|]. split; [repeat constructor|].
  split; [discriminate|]. split; [repeat constructor; simpl; intuition discriminate|]. split; [repeat constructor|].
  split; [discriminate|]. split; [repeat constructor; simpl; intuition discriminate|]. split; [repeat constructor|reflexivity].
Qed.
Example C26_somewhere :
  valid_lin 4 wide_path /\ wide_path <> [] /\ linear_to_ssa wide_path = Ok [[3; 0]; [4]; [2; 1; 5]] /\
  ssa_to_linear [[3; 0]; [4]; [2; 1; 5]] = Ok (zpath wide_path) /\
  lin_tree 4 wide_path = Some (PNode [PLeaf 2; PLeaf 1; PNode [PNode [PLeaf 3; PLeaf 0]]]).
Proof. split; [exact wide_valid|]. split; [discriminate|]. vm_compute. auto. Qed.
(** the empty path over one operand is valid, and its conversion fails: max() of an empty sequence *)
Theorem C26_empty_path_refuted :
  ~ (forall (n : nat) (s : lpath), valid_ssa n s -> exists p, ssa_to_linear s = Ok (zpath p)).
Proof. intros H. destruct (H 1 [] eq_refl) as [p E]. vm_compute in E. discriminate. Qed.
Print Assumptions C26_empty_path_refuted.

(** ** C27: the path optimisers return valid paths

    Index sets are lists of indices; [known sizes k]: every index of [k] has a size.  Orders in which
    sets and heaps are walked are arguments: any rearrangement. *)
Theorem C27_optimal_valid :
  forall (ord : list nat -> list nat) sizes limit output (inputs : list nset),
    (forall l, Permutation (ord l) l) -> 2 <= length inputs -> Forall (known sizes) inputs ->
    exists p, optimal ord sizes limit output inputs = Ok (zpath p) /\ valid_lin (length inputs) p.
Proof. intros. apply optimal_valid; auto. Qed.
Print Assumptions C27_optimal_valid.
Theorem C27_branch_valid :
  forall ord sizes limit output nbranch size_first slow arrange (inputs : list nset),
    (forall l, Permutation (ord l) l) -> (forall p l, Permutation (arrange p l) l) -> nbranch <> Some 0 ->
    2 <= length inputs -> Forall (known sizes) inputs ->
    exists p, branch ord sizes limit output nbranch size_first slow arrange inputs = Ok (zpath p) /\ valid_lin (length inputs) p.
Proof. intros. apply branch_valid; auto. Qed.
Print Assumptions C27_branch_valid.
(** [choose_push], [choose_pop] and [push_all]: which candidate the cost and choose functions prefer at each point *)
Theorem C27_greedy_valid :
  forall sizes choose_push choose_pop push_all (inputs : list nset) output,
    inputs <> [] -> Forall (known sizes) inputs -> Forall (@NoDup nat) inputs ->
    exists p, greedy sizes choose_push choose_pop push_all inputs output = Ok (zpath p) /\ valid_lin (length inputs) p.
Proof. intros. apply greedy_valid; auto. Qed.
Print Assumptions C27_greedy_valid.
Theorem C27_auto_valid :
  forall ord slow arrange sizes limit choose_push choose_pop push_all output (inputs : list nset),
    (forall l, Permutation (ord l) l) -> (forall p l, Permutation (arrange p l) l) ->
    2 <= length inputs -> Forall (known sizes) inputs -> Forall (@NoDup nat) inputs ->
    exists p, auto_path ord slow arrange sizes limit choose_push choose_pop push_all output inputs = Ok (zpath p) /\
              valid_lin (length inputs) p.
Proof.
  intros ord slow arrange sizes limit cpush cpop pall output inputs Ho Ha L K D. unfold auto_path, greedy_within.
  repeat match goal with |- context [if ?b then _ else _] => destruct b end; try (apply optimal_valid; auto; fail);
    try (apply branch_valid; auto; discriminate).
  apply greedy_valid; auto. intros ->. simpl in L. lia.
Qed.
Print Assumptions C27_auto_valid.

(** _tree_to_sequence: the path contracts exactly the given tree, up to the order inside a tuple *)
Theorem C27_tree_to_sequence :
  forall (n : nat) (t : ptree), full t -> Permutation (leaves t) (seq 0 n) ->
    exists p, tree_to_sequence t = Ok p /\ valid_lin n p /\ lin_tree n p = Some (norm t).
Proof. exact tree_to_sequence_ok. Qed.
Print Assumptions C27_tree_to_sequence.
(** the dynamic programming optimiser, for every memory limit: a path it returns is valid, and it does nothing else
    than return one or go on searching *)
Theorem C27_dynamic_programming_valid :
  forall fuel argsort sizes limit (inputs : list nset) output,
    (forall l, Permutation (argsort l) (seq 0 (length l))) ->
    Forall (known sizes) inputs -> known sizes output -> bound_index inputs output ->
    dp fuel argsort sizes limit inputs output = Err OutOfFuel \/
    exists p, dp fuel argsort sizes limit inputs output = Ok p /\ valid_lin (length inputs) p.
Proof. intros. apply dp_ok; auto. Qed.
Print Assumptions C27_dynamic_programming_valid.
(** and it stops when every dimension is at least two and there is no memory limit *)
Theorem C27_dynamic_programming_stops :
  forall argsort sizes (inputs : list nset) output,
    (forall l, Permutation (argsort l) (seq 0 (length l))) ->
    sizes_from 2 sizes (concat inputs ++ output) -> bound_index inputs output ->
    exists bound, forall fuel, bound <= fuel ->
      exists p, dp fuel argsort sizes None inputs output = Ok p /\ valid_lin (length inputs) p.
Proof.
  intros argsort sizes inputs output Hs H2 Hb. eexists (S _). intros fuel Hf. 
  assert (K1 : Forall (known sizes) inputs).
  { apply Forall_forall. intros i Hi x Hx. destruct (H2 x) as (z & E & _); eauto. apply in_app_iff. left. apply in_concat. eauto. }
  assert (K2 : known sizes output).
  { intros x Hx. destruct (H2 x) as (z & E & _); eauto. apply in_app_iff. auto. }
  destruct (@dp_ok argsort Hs sizes None inputs output fuel K1 K2 Hb) as [[E|E] N]; auto.
  exfalso. apply N; auto. exact Hf.
Qed.
Print Assumptions C27_dynamic_programming_stops.

Definition psizes : list (nat * Z) := [(0, 2%Z); (1, 3%Z); (2, 4%Z); (3, 5%Z)].
Definition pinputs : list nset := [[0; 1]; [1; 2]; [2; 3]; [3]; [0; 2]].
Definition keep_order (l : list nat) : list nat := l.
Definition in_order (l : list Z) : list nat := seq 0 (length l).
Definition four_times (a b : Z) : bool := Z.ltb (4 * b) a.
Definition first (_ : lpath) (_ : list gcand) : nat := 0.
Lemma pinputs_ok : Forall (known psizes) pinputs /\ Forall (@NoDup nat) pinputs /\ sizes_from 2 psizes (concat pinputs ++ [0]) /\ bound_index pinputs [0].
Proof.
  assert (S2 : sizes_from 2 psizes (concat pinputs ++ [0])).
  { intros i Hi. simpl in Hi. assert (H : i = 0 \/ i = 1 \/ i = 2 \/ i = 3) by lia.
    destruct H as [->|[->|[->| ->]]]; eexists; (split; [reflexivity|lia]). }
  split; [|split; [|split; [exact S2|]]].
  - apply Forall_forall. intros i Hi x Hx. destruct (S2 x) as (z & E & _); eauto. apply in_app_iff. left. apply in_concat. eauto.
  - repeat constructor; simpl; lia.
  - exists 0, 0. split; [simpl; auto|]. left. simpl. auto.
Qed.
Lemma sort_lex_perm {A} (key : A -> list Z) l : Permutation (sort_lex key l) l.
Proof.
  unfold sort_lex. cut (forall acc, Permutation (fold_left (fun acc x => ins_lex key x acc) l acc) (l ++ acc)).
  { intros H. rewrite H. now rewrite app_nil_r. }
  assert (I : forall x acc, Permutation (ins_lex key x acc) (x :: acc)).
  { intros x acc. induction acc as [|y r IH]; simpl; auto. destruct (lex_ltb (key x) (key y)); auto. rewrite IH. apply perm_swap. }
  induction l as [|x r IH]; intros acc; simpl; auto. rewrite IH, I. rewrite <- Permutation_middle. auto.
Qed.
Example C27_somewhere :
  (forall l, Permutation (keep_order l) l) /\ (forall l, Permutation (in_order l) (seq 0 (length l))) /\
  (forall p l, Permutation (memory_removed p l) l) /\
  Forall (known psizes) pinputs /\ Forall (@NoDup nat) pinputs /\ sizes_from 2 psizes (concat pinputs ++ [0]) /\ bound_index pinputs [0] /\
  (exists p, optimal keep_order psizes (Some 12%Z) [0] pinputs = Ok (zpath p) /\ length p = 4) /\
  (exists p, branch keep_order psizes None [0] (Some 2) false four_times memory_removed pinputs = Ok (zpath p) /\ length p = 4) /\
  (exists p, greedy psizes first first false pinputs [0] = Ok (zpath p) /\ length p = 4) /\
  (exists p, dp 10 in_order psizes None pinputs [0] = Ok p /\ length p = 4) /\
  tree_to_sequence (PNode [PNode [PLeaf 1; PLeaf 2]; PNode [PLeaf 0; PNode [PLeaf 4; PLeaf 5; PLeaf 3]]]) =
    Ok [[1; 2]; [1; 2; 3]; [0; 2]; [0; 1]].
Proof.
  pose proof pinputs_ok as (K & D & S2 & B).
  split; [intros; apply Permutation_refl|]. split; [intros; apply Permutation_refl|]. split; [intros; apply sort_lex_perm|].
  split; auto. split; auto. split; auto. split; auto.
  split. { exists [[0; 1]; [0; 1]; [0; 2]; [0; 1]]. vm_compute. auto. }
  split. { exists [[2; 3]; [0; 1]; [0; 2]; [0; 1]]. vm_compute. auto. }
  split. { exists [[0; 1]; [2; 3]; [0; 2]; [0; 1]]. vm_compute. auto. }
  split. { exists [[2; 3]; [2; 3]; [1; 2]; [0; 1]]. vm_compute. auto. }
  vm_compute. auto.
Qed.

(** one operand: the exhaustive searches raise instead of returning the empty path *)
Theorem C27_single_input_refuted :
  ~ (forall ord sizes limit output (inputs : list nset), (forall l, Permutation (ord l) l) -> inputs <> [] -> Forall (known sizes) inputs ->
       exists p, optimal ord sizes limit output inputs = Ok (zpath p) /\ valid_lin (length inputs) p).
Proof.
  intros H. destruct (H keep_order psizes None [0] [[0; 1]]) as (p & E & _).
  - intros; apply Permutation_refl.
  - discriminate.
  - constructor; [|constructor]. intros x Hx. destruct Hx as [<-|[<-|[]]]; eexists; reflexivity.
  - vm_compute in E. discriminate.
Qed.
Print Assumptions C27_single_input_refuted.
(** a branching optimiser that was used before answers with the path of the earlier network when that one was
    cheaper: here a path with two steps for two operands *)
Definition second_answer : res (list (list Z)) :=
  do r <- branch_call keep_order psizes None [0] None false four_times memory_removed branch_new [[0]; [0]; [0]];
  do q <- branch_call keep_order psizes None [0] None false four_times memory_removed (fst r) [[0; 1]; [1; 2]];
  Ok (snd q).
Theorem C27_reused_optimiser_refuted :
  exists p, second_answer = Ok (zpath p) /\ ~ valid_lin 2 p.
Proof.
  exists [[0; 1]; [0; 1]]. split; [vm_compute; reflexivity|]. simpl. intros (_ & _ & _ & _ & _ & H & _).
  inversion H as [|? ? _ H2]; subst. inversion H2; subst. lia.
Qed.
Print Assumptions C27_reused_optimiser_refuted.
(** nbranch = 0 explores nothing: KeyError *)
Theorem C27_no_branch_refuted :
  branch keep_order psizes None [0] (Some 0) false four_times memory_removed pinputs = Err KeyError.
Proof. vm_compute. reflexivity. Qed.
Print Assumptions C27_no_branch_refuted.
(** a dimension of size one: the cost cap does not grow, and the dynamic programming optimiser never stops *)
Theorem C27_dynamic_programming_loops_refuted :
  forall fuel, dp fuel in_order [(0, 1%Z); (1, 2%Z); (2, 2%Z)] None [[0; 1]; [1; 2]; [0; 2]] [] = Err OutOfFuel.
Proof.
  intros fuel. cbv -[dp_while].
  match goal with |- context [dp_while fuel ?a ?b ?c ?d ?e ?f ?g ?x] =>
    assert (H : forall fuel, dp_while fuel a b c d e f g x = Err OutOfFuel) end.
  { induction fuel0 as [|k IH]; [reflexivity|]. cbn [dp_while last].
    match goal with |- context [dp_round ?a ?b ?c ?d ?e ?f ?x] => replace (dp_round a b c d e f x) with (Ok x) by (vm_compute; reflexivity) end.
    cbn [bind]. exact IH. }
  rewrite H. reflexivity.
Qed.
Print Assumptions C27_dynamic_programming_loops_refuted.
(** so it does with a memory limit no path can meet *)
Theorem C27_infeasible_limit_refuted :
  forall fuel, dp fuel in_order [(0, 2%Z); (1, 2%Z); (2, 2%Z)] (Some 3%Z) [[0; 1]; [1; 2]] [0; 2] = Err OutOfFuel.
Proof.
  intros fuel. cbv -[dp_while].
  match goal with |- context [dp_while fuel ?a ?b ?c ?d ?e ?f ?g ?x] =>
    assert (H : forall fuel cap, dp_while fuel a b c d e f cap x = Err OutOfFuel) end.
  { induction fuel0 as [|k IH]; intros cap; [reflexivity|]. cbn [dp_while last].
    match goal with |- context [dp_round ?a ?b ?c ?d ?e ?f ?x] => assert (E : dp_round a b c d e f x = Ok x) end.
    { cbv -[Z.leb]. change (Z.leb 4 3) with false. destruct (Z.leb _ cap); reflexivity. }
    rewrite E. cbn [bind]. apply IH. }
  rewrite H. reflexivity.
Qed.
Print Assumptions C27_infeasible_limit_refuted.
(** operands that are all scalars or have only unshared summed indices: ValueError *)
Theorem C27_dynamic_programming_scalars_refuted :
  forall fuel, dp fuel in_order psizes None [[0]; [1]] [] = Err ValueError.
Proof. intros. reflexivity. Qed.
Print Assumptions C27_dynamic_programming_scalars_refuted.

(** ** C28: one step keeps exactly the indices still needed *)
Theorem C28_find_contraction :
  forall positions (inputs : list (list nat)) output,
    positions <> [] -> NoDup positions -> Forall (fun i => i < length inputs) positions ->
    exists new rest removed contract,
      find_contraction positions inputs output = Ok (new, rest ++ [new], removed, contract) /\
      rest = keep_except positions inputs /\
      (forall x, In x contract <-> exists i s, In i positions /\ nth_error inputs i = Some s /\ In x s) /\
      (forall x, In x new <-> In x contract /\ (In x output \/ exists s, In s rest /\ In x s)) /\
      (forall x, In x removed <-> In x contract /\ ~ In x new).
Proof. exact find_contraction_spec. Qed.
Print Assumptions C28_find_contraction.
(** the flops of a step: the product of the dimensions times the number of operations per element *)
Theorem C28_flop_count :
  forall idx inner num_terms sizes, (forall i, In i idx -> exists z, get i sizes = Some z) ->
    flop_count idx inner num_terms sizes =
    Ok (fold_right Z.mul 1 (map (fun i => match get i sizes with Some z => z | None => 1 end) idx) *
        (if inner then Z.max 1 (num_terms - 1) + 1 else Z.max 1 (num_terms - 1)))%Z.
Proof.
  intros idx inner num_terms sizes H. unfold flop_count. rewrite size_by_dict_spec; auto. cbn [bind]. f_equal. destruct inner; ring.
Qed.
Print Assumptions C28_flop_count.
Example C28_somewhere :
  find_contraction [0; 2] [[0; 1]; [1; 2]; [1; 3]; [3; 4]] [0] = Ok ([0; 1; 3], [[1; 2]; [3; 4]; [0; 1; 3]], [], [1; 3; 0]) /\
  find_contraction [3; 0] [[0; 1]; [1; 2]; [3]; [3; 4]] [0] = Ok ([0; 1; 3], [[1; 2]; [3]; [0; 1; 3]], [4], [3; 4; 0; 1]) /\
  flop_count [0; 1; 2] true 2 psizes = Ok 48%Z.
Proof. vm_compute. auto. Qed.
