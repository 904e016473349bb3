(** * C54: the exhaustive optimiser returns a cheapest pairwise path

    The cost of a path is that of its tree ([OptimalSpec.tree_flops]).  [known sizes k]: every index of [k]
    has a size.  The order in which sets are walked is an argument: any rearrangement. *)
From Coq Require Import List Arith ZArith Lia Bool Permutation.
From Verif Require Import Base PathSpec ModelOrder ModelPath ModelOpt ModelDP OptProofs OptimalSpec OptimalProofs OptimalSearch.
Import ListNotations.
Set Implicit Arguments.
Open Scope nat_scope.

(** the flops of the tree that a path denotes *)
Definition path_flops (size : nat -> Z) (output : list nat) (inputs : list (list nat)) (p : lpath) (c : Z) : Prop :=
  exists t, lin_tree (length inputs) p = Some t /\ pairwise_tree (length inputs) t /\ tree_flops size output inputs t = c.
(** [p] is a valid pairwise path and none is cheaper *)
Definition cheapest (size : nat -> Z) (output : list nat) (inputs : list (list nat)) (p : lpath) : Prop :=
  valid_lin (length inputs) p /\
  exists c, path_flops size output inputs p c /\
    forall q, valid_lin (length inputs) q -> Forall (fun s => length s = 2) q ->
      exists d, path_flops size output inputs q d /\ (c <= d)%Z.

Lemma optimal_cheapest ord sizes output (inputs : list nset) :
  (forall l, Permutation (ord l) l) -> 2 <= length inputs -> Forall (known sizes) inputs ->
  (forall x z, get x sizes = Some z -> (0 <= z)%Z) -> no_hyperedges output inputs ->
  exists p, optimal ord sizes None output inputs = Ok (zpath p) /\ cheapest (size_in sizes) output inputs p.
Proof.
  intros Ho L K P NH. destruct (@optimal_best ord Ho sizes output inputs K P NH L) as (p & t & E & V & T & Pt & M). exists p. split; auto. split; auto.
  eexists. split; [exists t; split; [exact T|]; split; [exact Pt|reflexivity]|].
  intros q Vq Pq. destruct (pairwise_path_tree _ Vq Pq) as (t' & Et & Pt'). eexists. split; [exists t'; split; [exact Et|]; split; [exact Pt'|reflexivity]|].
  apply M. exact Pt'.
Qed.

Theorem C54_optimal_is_cheapest :
  forall (ord : list nat -> list nat) sizes output (inputs : list nset),
    (forall l, Permutation (ord l) l) -> 2 <= length inputs -> Forall (known sizes) inputs ->
    (forall x z, get x sizes = Some z -> (0 <= z)%Z) -> no_hyperedges output inputs ->
    exists p, optimal ord sizes None output inputs = Ok (zpath p) /\ cheapest (size_in sizes) output inputs p.
Proof. exact optimal_cheapest. Qed.
Print Assumptions C54_optimal_is_cheapest.

(** the default choice of optimiser uses the exhaustive one for up to four operands *)
Theorem C54_auto_is_cheapest_for_few_operands :
  forall ord slow arrange sizes choose_push choose_pop push_all output (inputs : list nset),
    (forall l, Permutation (ord l) l) -> 2 <= length inputs <= 4 -> Forall (known sizes) inputs ->
    (forall x z, get x sizes = Some z -> (0 <= z)%Z) -> no_hyperedges output inputs ->
    exists p, auto_path ord slow arrange sizes None choose_push choose_pop push_all output inputs = Ok (zpath p) /\
              cheapest (size_in sizes) output inputs p.
Proof.
  intros ord slow arrange sizes cpush cpop pall output inputs Ho L K P NH. unfold auto_path.
  destruct inputs as [|a [|b [|c [|d [|e r]]]]]; cbn [length] in L; try lia; cbn; apply optimal_cheapest; auto; cbn; lia.
Qed.
Print Assumptions C54_auto_is_cheapest_for_few_operands.

(** a matrix chain A(0,1) B(1,2) C(2,3) v(3), sizes 10, 20, 5 and 2: the product is best taken from the right *)
Definition chain : list nset := [[0; 1]; [1; 2]; [2; 3]; [3]].
Definition chain_sizes : list (nat * Z) := [(0, 10%Z); (1, 20%Z); (2, 5%Z); (3, 2%Z)].
Example C54_somewhere :
  (forall l : list nat, Permutation ((fun l => l) l) l) /\ 2 <= length chain <= 4 /\ Forall (known chain_sizes) chain /\
  (forall x z, get x chain_sizes = Some z -> (0 <= z)%Z) /\ no_hyperedges [0] chain /\
  optimal (fun l => l) chain_sizes None [0] chain = Ok (zpath [[2; 3]; [1; 2]; [0; 1]]) /\
  path_flops (size_in chain_sizes) [0] chain [[2; 3]; [1; 2]; [0; 1]] 620 /\
  path_flops (size_in chain_sizes) [0] chain [[0; 1]; [0; 2]; [0; 1]] 2240.
Proof.
  split; [auto|]. split; [simpl; lia|]. split; [repeat constructor; intros x I; simpl in I; repeat destruct I as [<-|I]; try destruct I; eexists; reflexivity|].
  split; [intros x z E; apply get_In in E; simpl in E; repeat destruct E as [E|E]; try (inversion E; lia); destruct E|].
  split.
  { assert (O : forall x o, occurs [0] chain x o -> (x = 0 /\ (o = None \/ o = Some 0)) \/ (x = 1 /\ (o = Some 0 \/ o = Some 1)) \/
        (x = 2 /\ (o = Some 1 \/ o = Some 2)) \/ (x = 3 /\ (o = Some 2 \/ o = Some 3))).
    { intros x [i|] H; cbn in H; [|intuition subst; auto]. destruct H as [Li H].
      do 4 (destruct i as [|i]; [cbn in H; intuition subst; auto 8|]). simpl in Li. lia. }
    intros x o1 o2 o3 H1 H2 H3. apply O in H1. apply O in H2. apply O in H3. intuition (subst; try discriminate; auto). }
  split; [vm_compute; reflexivity|].
  split; (eexists; split; [vm_compute; reflexivity|split; [split; [cbn; auto|]|vm_compute; reflexivity]]); vm_compute.
  - apply NoDup_Permutation; [repeat constructor; simpl; intuition discriminate|repeat constructor; simpl; intuition discriminate|simpl; tauto].
  - apply NoDup_Permutation; [repeat constructor; simpl; intuition discriminate|repeat constructor; simpl; intuition discriminate|simpl; tauto].
Qed.

(** With an index shared by three operands the promise fails: results of a pair are remembered by the index
    sets of the pair alone, although what has to be kept depends on the operands that are left. *)
Theorem C54_hyperedges_refuted :
  ~ (forall (ord : list nat -> list nat) sizes output (inputs : list nset),
       (forall l, Permutation (ord l) l) -> 2 <= length inputs -> Forall (known sizes) inputs ->
       (forall x z, get x sizes = Some z -> (0 <= z)%Z) ->
       exists p, optimal ord sizes None output inputs = Ok (zpath p) /\ cheapest (size_in sizes) output inputs p).
Proof.
  intros H. destruct (H (fun l => l) [(0, 3%Z); (1, 2%Z)] [1] [[0]; [0]; [0; 1]]) as (p & E & V & c & (t & T & _ & C) & M).
  - auto.
  - simpl; lia.
  - repeat constructor; intros x I; simpl in I; repeat destruct I as [<-|I]; try destruct I; eexists; reflexivity.
  - intros x z E; apply get_In in E; simpl in E; repeat destruct E as [E|E]; try (inversion E; lia); destruct E.
  - assert (E0 : optimal (fun l => l) [(0, 3%Z); (1, 2%Z)] None [1] [[0]; [0]; [0; 1]] = Ok (zpath [[0; 2]; [0; 1]])) by (vm_compute; reflexivity).
    assert (Ez : zpath p = zpath [[0; 2]; [0; 1]]) by congruence.
    destruct (M [[0; 1]; [0; 1]]) as (d & (t' & T' & _ & D) & L).
    + cbn. repeat split; try discriminate; repeat constructor; simpl; intuition discriminate.
    + repeat constructor.
    + assert (Ep : p = [[0; 2]; [0; 1]]).
      { clear - Ez. unfold zpath in Ez. revert Ez. generalize ([[0; 2]; [0; 1]]). induction p as [|s p IH]; intros [|s' p'] E; inversion E; auto.
        f_equal; auto. clear - H0. revert s' H0. induction s as [|x s IH]; intros [|y s'] E; inversion E; auto. f_equal; auto. lia. }
      subst p. vm_compute in T. inversion T; subst t. vm_compute in T'. inversion T'; subst t'. vm_compute in C, D. lia.
Qed.
Print Assumptions C54_hyperedges_refuted.
