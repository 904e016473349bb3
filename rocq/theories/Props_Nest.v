(** * C07: encapsulation preserves the value *)
From Verif Require Import Base Scalar NetSpec ModelArray ModelTN TNInv TNOps TNSpec TNDelta ModelHist TNHist TNValue TNExact
  TNEdit ModelVal ModelNest NestSpec NestSub NestEnc SimplifySpec NestGrow Examples.
Set Implicit Arguments.

Notation value := (tn_value (@tval_value _)).

(** For every order in which Python may iterate over its sets, encapsulating any nodes and edges that
    may be moved succeeds, moves exactly the nodes and edges asked for into a network held by one new
    node, and leaves the value unchanged at every open index. *)
Theorem C07_encapsulate :
  forall (S : scalar) (ord : list name -> list name) (n : tn (tval S)) (xs es os : option (list name)) (x : name),
    (forall l, Permutation (ord l) l) -> regular n -> request n xs es os ->
    (In x (keys (nodes n)) -> chosen n xs es x) ->
    exists n' m, encapsulate ord xs es os x n = (n', Ok (x, m)) /\
      (forall o, value n' o = value n o) /\ opens n' = opens n /\
      (forall y, In y (keys (nodes m)) <-> chosen n xs es y) /\
      (forall y, y <> x -> get y (nodes n') = if mem y (keys (nodes m)) then None else get y (nodes n)) /\
      option_map (fun d => (n_legs d, n_val d)) (get x (nodes n')) = Some (opens m, Some (VNet m)) /\
      (forall e, In e (keys (edges n')) <-> In e (keys (edges n)) /\ ~ moved n xs es e) /\
      regular n' /\ regular m.
Proof.
  intros S ord n xs es os x Ho R Q Nx.
  destruct (@encapsulate_ok S ord Ho n xs es os x R Q Nx) as (n' & m & E & R' & Rm & V & ys & fs & Ne & Cy & Cf & _).
  pose proof (proj1 (rg_inv R)) as W. pose proof (proj1 (rg_inv R')) as W'.
  assert (Cm : forall y, In y (keys (nodes m)) <-> In y ys /\ In y (keys (nodes n))).
  { intros y. pose proof (ne_content Ne y) as C. rewrite <- (mem_In y ys). split.
    - intros I. destruct (key_get _ _ I) as [d G]. rewrite G in C. destruct (mem y ys); [|discriminate]. split; auto.
      destruct (get y (nodes n)) eqn:G'; [|discriminate]. eapply get_Some_key; eauto.
    - intros [I J]. rewrite I in C. destruct (key_get _ _ J) as [d G]. rewrite G in C.
      destruct (get y (nodes m)) eqn:G'; [eapply get_Some_key; eauto|discriminate]. }
  assert (Ck : forall y, chosen n xs es y -> In y (keys (nodes n))).
  { intros y. unfold chosen. destruct xs as [xs|].
    - apply (rq_nodes Q eq_refl).
    - destruct es as [es|]; auto. intros (e & _ & nd & G & _). eapply get_Some_key; eauto. }
  exists n', m. split; auto. split; auto. split; [apply (ne_opens Ne)|]. split; [|split; [|split; [|split; [|split]]]]; auto.
  - intros y. rewrite Cm, Cy. split; [tauto|]. auto.
  - intros y N. destruct (mem_spec y (keys (nodes m))) as [I|I].
    + destruct (get y (nodes n')) eqn:G; auto. apply (nested_get W W' Ne) in G as [_ J]; auto. apply Cm in I. tauto.
    + destruct (get y (nodes n')) eqn:G.
      * apply (nested_get W W' Ne) in G; auto. symmetry. tauto.
      * destruct (get y (nodes n)) eqn:G'; auto. rewrite <- G. apply (nested_get W W' Ne); auto. split; auto.
        intros J. apply I, Cm. split; auto. eapply get_Some_key; eauto.
  - rewrite (nested_get_new W' Ne). reflexivity.
  - intros e. rewrite <- Cf. pose proof (nested_edge W' Ne e) as G. split.
    + intros I. destruct (key_get _ _ I) as [d H]. rewrite H in G. destruct (mem_spec e fs); [discriminate|]. split; auto.
      eapply get_Some_key; eauto.
    + intros [I N]. destruct (key_get _ _ I) as [d H]. destruct (mem_spec e fs); [tauto|]. rewrite H in G. eapply get_Some_key; eauto.
Qed.
Print Assumptions C07_encapsulate.

(** Several disjoint groups, one after the other. *)
Theorem C07_disjoint_groups :
  forall (S : scalar) (ord : list name -> list name) (n : tn (tval S)) (groups : list (list name * name)),
    (forall l, Permutation (ord l) l) -> regular n ->
    NoDup (concat (map fst groups)) -> incl (concat (map fst groups)) (keys (nodes n)) ->
    NoDup (map snd groups) -> (forall x, In x (map snd groups) -> ~ In x (keys (nodes n))) ->
    (forall g e, In g groups -> boundary n (Some (fst g)) None e -> is_fixed n e = false) ->
    exists n', foreach (fun g => let! _ := encapsulate ord (Some (fst g)) None None (snd g) in ret tt) groups n = (n', Ok tt) /\
      forall o, value n' o = value n o.
Proof.
  intros S ord n gs Ho R A B C D E. destruct (@enc_groups_ok S ord Ho gs n R A B C D E) as (n' & F & _ & V). eauto.
Qed.
Print Assumptions C07_disjoint_groups.

(** simplify() stops, after at most as many rounds as there are nodes, and preserves the value.  When
    recursive, no two nodes that share an edge are left that would merge into one with no more edges.
    When no open edge belongs to two nodes, no node of the result has more edges than the largest node
    before had. *)
Theorem C07_simplify :
  forall (S : scalar) (ord : list name -> list name) (n : tn (tval S)) (ids : list name) (recursive : bool),
    (forall l, Permutation (ord l) l) -> regular n -> no_fixes n -> NoDup ids ->
    (forall x, In x ids -> ~ In x (keys (nodes n))) -> length (nodes n) <= length ids ->
    exists n', simplify ord ids recursive n = (n', Ok tt) /\ (forall o, value n' o = value n o) /\
      (recursive = true -> forall a b e, a <> b -> attached n' a e -> attached n' b e ->
         Nat.max (length (edges_of n' a)) (length (edges_of n' b)) < length (merged_edges n' a b)) /\
      (open_edges_simple n -> forall y, In y (keys (nodes n')) ->
         exists z, In z (keys (nodes n)) /\ length (edges_of n' y) <= length (edges_of n z)).
Proof.
  intros S ord n ids rec Ho R NF ND Nx L. destruct (@simplify_ok S ord Ho ids n R NF ND Nx L rec) as (n' & E & R' & V & D).
  exists n'. split; auto. split; auto. split.
  - intros Er. apply (@simplify_pair_none S); [apply R'|auto].
  - intros Os. exact (@simplify_grow S ord Ho ids n R NF ND Nx Os rec n' E).
Qed.
Print Assumptions C07_simplify.

(** ** a network on which the hypotheses hold *)
Definition zbuild (cs : list (call ZT)) : tn ZT := fst (run cs empty_tn).
Fixpoint calls_ok (cs : list (call ZT)) : Prop :=
  match cs with [] => True | c :: r => names_given c /\ no_change_fix c /\ calls_ok r end.
Lemma calls_ok_In cs c : calls_ok cs -> In c cs -> names_given c /\ no_change_fix c.
Proof. induction cs as [|q r IH]; simpl; [tauto|]. intros (A & B & C) [<-|I]; auto. Qed.
Definition sizedb (n : tn ZT) : bool :=
  forallb (fun p => match n_val (snd p) with
                    | Some t => eqb (tval_shape t) (Some (map (edim n) (n_legs (snd p))))
                    | None => false
                    end && forallb (fun e => match edim n e with Some _ => true | None => false end) (n_legs (snd p))) (nodes n)
  && forallb (fun e => match edim n e with Some _ => true | None => false end) (opens n).
Lemma zbuild_regular cs : calls_ok cs -> snd (run cs empty_tn) = Ok tt -> sizedb (zbuild cs) = true -> regular (zbuild cs).
Proof.
  intros N E Z. unfold sizedb in Z. apply andb_true_iff in Z as [Z1 Z2]. rewrite forallb_forall in Z1, Z2. constructor.
  - eapply reach_inv; [|apply empty_inv]. apply run_reach; auto. intros _ c I. apply (calls_ok_In _ _ N I).
  - apply (@reach_fix_nodup ZT _ (fun _ => @no_change_fix ZT)) with (n := empty_tn); auto.
    + apply run_reach; auto. intros _ c I. apply (calls_ok_In _ _ N I).
    + intros e ed fx Q; discriminate Q.
  - intros x nd G. apply get_In in G. specialize (Z1 _ G). simpl in Z1. apply andb_true_iff in Z1 as [A B].
    destruct (n_val nd) as [t|]; [|discriminate]. exists t. split; auto. apply (proj1 (eqb_eq _ _)) in A. split; auto.
    rewrite forallb_forall in B. intros e Ie Q. specialize (B e Ie). rewrite Q in B. discriminate.
  - intros e Ie Q. specialize (Z2 e Ie). rewrite Q in Z2. discriminate.
Qed.
Notation d_ := (NS "d").
Notation l_ := (NS "l").
Notation g_ := (NS "g").
Notation h_ := (NS "h").
(** a chain of four matrices and vectors, with the edge i open twice and the edge l fixed to 1 *)
Definition nest_calls : list (call ZT) :=
  [CAddNode a_ (Some [i_; j_]) (zmat 2 3 [1;2;3;4;5;6]%Z) false;
   CAddNode b_ (Some [j_; k_]) (zmat 3 2 [1;0;2;1;0;3]%Z) false;
   CAddNode c_ (Some [k_; l_]) (zmat 2 2 [1;2;3;4]%Z) false;
   CAddNode d_ (Some [l_; l_]) (zmat 2 2 [5;0;0;7]%Z) false;
   COpenEdge i_ None; COpenEdge i_ None; CFixEdge l_ [1] false].
Definition nest_net := zbuild nest_calls.
Lemma nest_regular : regular nest_net.
Proof. apply zbuild_regular; [vm_compute; intuition congruence|vm_compute; reflexivity|vm_compute; reflexivity]. Qed.

Lemma attached_dec (n : tn ZT) : wf n -> forall y e, attached n y e <-> In (y, e) (adj n).
Proof. intros W y e. symmetry. apply (wf_adj W). Qed.
(** the nodes a and b may be encapsulated: the boundary is i and k *)
Example C07_somewhere : request nest_net (Some [a_; b_]) None (Some [k_; i_]) /\ ~ In (NS "x") (keys (nodes nest_net)) /\
  value nest_net [1; 1] <> 0%Z.
Proof.
  assert (B : forall e, boundary nest_net (Some [a_; b_]) None e <-> e = k_ \/ e = i_).
  { intros e. unfold boundary, chosen, moved. split.
    - intros ((y & Iy & A) & M).
      assert (e = i_ \/ e = j_ \/ e = k_) as [-> | [-> | ->]]; auto.
      { apply (attached_dec (proj1 (rg_inv nest_regular))) in A. vm_compute in A.
        repeat (destruct A as [A|A]; [injection A as <- <-; vm_compute in Iy; intuition congruence|]). destruct A. }
      exfalso. apply M. split; [exists a_; split; [simpl; auto|]; apply (attached_dec (proj1 (rg_inv nest_regular))); vm_compute; auto|].
      split; [vm_compute; intuition congruence|]. intros z Az. apply (attached_dec (proj1 (rg_inv nest_regular))) in Az. vm_compute in Az.
      repeat (destruct Az as [Az|Az]; [injection Az as <-; try discriminate; vm_compute; auto|]). destruct Az.
    - intros [->| ->].
      + split; [exists b_; split; [simpl; auto|]; apply (attached_dec (proj1 (rg_inv nest_regular))); vm_compute; auto 10|].
        intros (_ & _ & H). assert (In c_ [a_; b_]) as X; [|vm_compute in X; intuition discriminate].
        apply H, (attached_dec (proj1 (rg_inv nest_regular))). vm_compute. auto 10.
      + split; [exists a_; split; [simpl; auto|]; apply (attached_dec (proj1 (rg_inv nest_regular))); vm_compute; auto|].
        intros (_ & H & _). apply H. vm_compute. auto. }
  split; [|split; [vm_compute; intuition discriminate|vm_compute; discriminate]].
  constructor; try discriminate.
  - intros q Q. injection Q as <-. split; [apply nodupb_NoDup; vm_compute; reflexivity|].
    intros c [<-|[<-|[]]]; vm_compute; auto.
  - intros q e Q _. injection Q as <-. rewrite B. simpl. intuition.
  - intros _ e Be. apply B in Be as [->| ->]; vm_compute; reflexivity.
Qed.
(** what the code computes there *)
Example C07_runs :
  match encapsulate (fun l => rev l) (Some [a_; b_]) None (Some [k_; i_]) (NS "x") nest_net with
  | (n', Ok (x, m)) => (keys (nodes n'), keys (edges n'), keys (nodes m), opens m, value n' [1; 1], value nest_net [1; 1])
                       = ([c_; d_; NS "x"], [i_; k_; l_], [a_; b_], [k_; i_], 840%Z, 840%Z)
  | _ => False
  end.
Proof. vm_compute. reflexivity. Qed.

(** a chain of three matrices: simplify() merges everything into one node *)
Definition row_calls : list (call ZT) :=
  [CAddNode a_ (Some [i_; j_]) (zmat 2 3 [1;2;3;4;5;6]%Z) false;
   CAddNode b_ (Some [j_; k_]) (zmat 3 2 [1;0;2;1;0;3]%Z) false;
   CAddNode c_ (Some [k_; l_]) (zmat 2 2 [1;2;3;4]%Z) false;
   COpenEdge i_ None; COpenEdge l_ None].
Definition row_net := zbuild row_calls.
Example C07_simplify_sizes_somewhere :
  regular row_net /\ no_fixes row_net /\ open_edges_simple row_net /\
  (forall x, In x [NS "x"; NS "y"; NS "z"] -> ~ In x (keys (nodes row_net))) /\ length (nodes row_net) <= 3 /\
  (let n' := fst (simplify (fun l => l) [NS "x"; NS "y"; NS "z"] true row_net) in
   (keys (nodes n'), map (fun x => length (edges_of n' x)) (keys (nodes n')), value n' [1; 1], value row_net [1; 1])
   = ([NS "y"], [2], 120%Z, 120%Z)).
Proof.
  assert (R : regular row_net) by (apply zbuild_regular; [vm_compute; intuition congruence|vm_compute; reflexivity|vm_compute; reflexivity]).
  split; auto. split; [|split; [|split; [intros x [<-|[<-|[<-|[]]]]; vm_compute; intuition discriminate|split; [vm_compute; lia|vm_compute; reflexivity]]]].
  - intros e. unfold is_fixed. destruct (get e (edges row_net)) as [ed|] eqn:G; auto. apply get_In in G. vm_compute in G.
    repeat (destruct G as [G|G]; [inversion G; subst; reflexivity|]). destruct G.
  - intros e x y Io Ax Ay. apply (attached_dec (proj1 (rg_inv R))) in Ax. apply (attached_dec (proj1 (rg_inv R))) in Ay.
    vm_compute in Io. vm_compute in Ax. vm_compute in Ay.
    repeat (destruct Ax as [Ax|Ax]; [injection Ax as <- <-; repeat (destruct Ay as [Ay|Ay]; [injection Ay; intros; subst; first [reflexivity|discriminate|intuition discriminate]|]); destruct Ay|]).
    destruct Ax.
Qed.
(** With an open edge on two nodes the merged node can be larger than both: the program takes the shared
    edge to disappear, although it stays open. *)
Definition grow_calls : list (call ZT) :=
  [CAddNode a_ (Some [i_; j_]) (zmat 2 2 [1;2;3;4]%Z) false;
   CAddNode b_ (Some [i_; k_]) (zmat 2 2 [1;0;2;1]%Z) false;
   COpenEdge i_ None; COpenEdge j_ None; COpenEdge k_ None].
Theorem C07_simplify_grows_refuted :
  ~ forall (n : tn ZT) (ids : list name), regular n -> no_fixes n -> NoDup ids ->
      (forall x, In x ids -> ~ In x (keys (nodes n))) -> length (nodes n) <= length ids ->
      forall n', simplify (fun l => l) ids true n = (n', Ok tt) -> forall y, In y (keys (nodes n')) ->
        exists z, In z (keys (nodes n)) /\ length (edges_of n' y) <= length (edges_of n z).
Proof.
  intros H.
  assert (R : regular (zbuild grow_calls)) by (apply zbuild_regular; [vm_compute; intuition congruence|vm_compute; reflexivity|vm_compute; reflexivity]).
  destruct (H (zbuild grow_calls) [NS "x"; NS "y"] R) with (n' := fst (simplify (fun l => l) [NS "x"; NS "y"] true (zbuild grow_calls))) (y := NS "x") as (z & Iz & L).
  - intros e. unfold is_fixed. destruct (get e (edges (zbuild grow_calls))) as [ed|] eqn:G; auto. apply get_In in G. vm_compute in G.
    repeat (destruct G as [G|G]; [inversion G; subst; reflexivity|]). destruct G.
  - apply nodupb_NoDup. vm_compute. reflexivity.
  - intros x [<-|[<-|[]]]; vm_compute; intuition discriminate.
  - vm_compute. lia.
  - vm_compute. reflexivity.
  - vm_compute. auto.
  - vm_compute in Iz. destruct Iz as [<-|[<-|[]]]; vm_compute in L; lia.
Qed.
Print Assumptions C07_simplify_grows_refuted.

(** Without the condition on fixed boundary edges the property fails: the edge l is fixed to 1 and
    joins c and d.  In the network that encapsulate moves c into, l is closed and not fixed, so c is
    summed over l. *)
Theorem C07_fixed_boundary_refuted :
  ~ forall (n : tn ZT) (xs : list name) (x : name), regular n -> NoDup xs -> incl xs (keys (nodes n)) ->
      ~ In x (keys (nodes n)) ->
      exists n' m, encapsulate (fun l => l) (Some xs) None None x n = (n', Ok (x, m)) /\ forall o, value n' o = value n o.
Proof.
  intros H. destruct (H nest_net [c_] (NS "x") nest_regular) as (n' & m & E & V).
  - repeat constructor. simpl; tauto.
  - intros c [<-|[]]. vm_compute. auto.
  - vm_compute. intuition discriminate.
  - specialize (V [1; 1]).
    assert (Q : value (fst (encapsulate (fun l => l) (Some [c_]) None None (NS "x") nest_net)) [1; 1] <> value nest_net [1; 1])
      by (vm_compute; discriminate).
    apply Q. rewrite E. exact V.
Qed.
Print Assumptions C07_fixed_boundary_refuted.

(** Nor for an open edge named in [edges] without [nodes]: the code removes it from the network. *)
Theorem C07_open_edge_refuted :
  ~ forall (n : tn ZT) (es : list name) (x : name), regular n -> incl es (keys (edges n)) -> ~ In x (keys (nodes n)) ->
      (forall e, is_fixed n e = true -> forall y e', In e' es -> attached n y e' -> ~ attached n y e) ->
      exists n' m, encapsulate (fun l => l) None (Some es) None x n = (n', Ok (x, m)) /\ forall e, In e (opens n') -> In e (keys (edges n')).
Proof.
  intros H. destruct (H nest_net [i_] (NS "x") nest_regular) as (n' & m & E & V).
  - intros c [<-|[]]. vm_compute. auto.
  - vm_compute. intuition discriminate.
  - intros e Fe y e' [<-|[]] A A'.
    assert (e = l_) as ->.
    { assert (K : In e (keys (edges nest_net))).
      { unfold is_fixed in Fe. destruct (get e (edges nest_net)) eqn:G; [eapply get_Some_key; eauto|discriminate]. }
      vm_compute in K. repeat (destruct K as [<-|K]; [vm_compute in Fe; try discriminate; auto|]). destruct K. }
    apply (attached_dec (proj1 (rg_inv nest_regular))) in A, A'. vm_compute in A, A'.
    repeat (destruct A as [A|A]; [injection A as <-; try discriminate; repeat (destruct A' as [A'|A']; [try discriminate|]); destruct A'|]). destruct A.
  - assert (Q : forallb (fun e => mem e (keys (edges (fst (encapsulate (fun l => l) None (Some [i_]) None (NS "x") nest_net)))))
              (opens (fst (encapsulate (fun l => l) None (Some [i_]) None (NS "x") nest_net))) = false) by (vm_compute; reflexivity).
    rewrite E in Q. simpl fst in Q. rewrite (proj2 (forallb_forall _ _)) in Q; [discriminate|]. intros e Ie. apply mem_In. auto.
Qed.
Print Assumptions C07_open_edge_refuted.

(** a network without fixed edges, for the other two theorems *)
Definition nest_calls2 : list (call ZT) := removelast nest_calls.
Definition nest_net2 := zbuild nest_calls2.
Lemma nest_regular2 : regular nest_net2.
Proof. apply zbuild_regular; [vm_compute; intuition congruence|vm_compute; reflexivity|vm_compute; reflexivity]. Qed.
Lemma nest_no_fixes2 : no_fixes nest_net2.
Proof.
  intros e. unfold is_fixed. destruct (get e (edges nest_net2)) as [ed|] eqn:G; auto. apply get_In in G. vm_compute in G.
  repeat (destruct G as [G|G]; [inversion G; subst; reflexivity|]). destruct G.
Qed.
Example C07_groups_somewhere :
  let gs := [([b_; a_], NS "x"); ([c_], NS "y")] in
  NoDup (concat (map fst gs)) /\ incl (concat (map fst gs)) (keys (nodes nest_net2)) /\ NoDup (map snd gs) /\
  (forall x, In x (map snd gs) -> ~ In x (keys (nodes nest_net2))).
Proof.
  cbv zeta. split; [apply nodupb_NoDup; vm_compute; reflexivity|]. split; [intros c Ic; vm_compute in *; intuition|].
  split; [apply nodupb_NoDup; vm_compute; reflexivity|]. intros x [<-|[<-|[]]]; vm_compute; intuition discriminate.
Qed.
Example C07_simplify_somewhere :
  let ids := [NI 0; NI 1; NI 2; NI 3] in
  NoDup ids /\ (forall x, In x ids -> ~ In x (keys (nodes nest_net2))) /\ length (nodes nest_net2) <= length ids /\
  keys (nodes (fst (simplify (fun l => l) ids true nest_net2))) = [NI 2] /\
  value (fst (simplify (fun l => l) ids true nest_net2)) [0; 0] = value nest_net2 [0; 0].
Proof.
  cbv zeta. split; [apply nodupb_NoDup; vm_compute; reflexivity|].
  split; [intros x [<-|[<-|[<-|[<-|[]]]]]; vm_compute; intuition discriminate|]. vm_compute. auto.
Qed.
