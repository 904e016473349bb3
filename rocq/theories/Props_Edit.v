(** Property theorems about editing a tensor network (C08 - C15, C20).

    Reading guide.  [tn_value pv n o] is the defining sum of the network [n] at the output index
    [o] (TNSpec.v, NetSpec.v); [do_call c n] performs one method call and returns the network
    left behind together with the result or the exception; [reach ok n n'] says that [n'] is
    obtained from [n] by calls that all returned normally and satisfy [ok]. *)
From Verif Require Import Base Scalar NetSpec Sums NetAlg ModelArray ModelTN TNInv TNOps TNSpec TNMerge TNDelta
  ModelHist TNHist TNValue TNValue2 TNExact TNDeltaValue TNEdit TNEdit2 ModelVal ValProofs Examples.
Set Implicit Arguments.

(** ** C12: the hypergraph stays consistent under every history of edits *)

(** what a user can observe about consistency *)
Definition consistent {T} (n : tn T) : Prop :=
  NoDup (keys (nodes n)) /\ NoDup (keys (edges n)) /\ NoDup (adj n) /\
  (forall x nd e, get x (nodes n) = Some nd -> In e (n_legs nd) -> In e (keys (edges n))) /\
  (forall x e, In (x, e) (adj n) <-> exists nd, get x (nodes n) = Some nd /\ In e (n_legs nd)) /\
  (forall e, In e (opens n) -> In e (keys (edges n))) /\
  (forall e ed fx v, get e (edges n) = Some ed -> e_fix ed = Some fx -> In v fx ->
     exists d, e_dim ed = Some d /\ v < d).

Lemma inv_consistent {T} (n : tn T) : inv n -> consistent n.
Proof.
  intros [W _]. destruct W as [w1 w2 w3 w4 w5 w6 w7].
  split; auto. split; auto. split; auto. split; [exact w3|]. split; [exact w4|]. split; [exact w6|].
  intros e ed fx v G F Hv. destruct (w7 _ _ _ G F) as (d & D & L). exists d; split; auto.
  rewrite Forall_forall in L. auto.
Qed.

Theorem C12_histories_keep_consistency :
  forall (T : Type) (PT : Payload T) (start : list name) (d : option nat) (n0 n : tn T),
    ~ In NN start -> new_tn start d = (n0, Ok tt) ->
    reach (fun _ c => names_given c) n0 n -> consistent n.
Proof.
  exact (fun T PT start d n0 n H E R => inv_consistent (reach_inv R (proj1 (new_tn_ok start d H E)))).
Qed.
Print Assumptions C12_histories_keep_consistency.
Example C12_holds_somewhere :
  exists n0 n : tn ZT, new_tn [i_] (Some 2) = (n0, Ok tt) /\
    reach (fun _ c => names_given c) n0 n /\ opens n = [i_; k_] /\
    keys (nodes n) = [a_; c_] /\ keys (edges n) = [i_; k_].
Proof.
  pose (cs := [CAddNode a_ (Some [i_; j_]) (zmat 2 3 [1;2;3;4;5;6]%Z) false;
               CAddNode b_ (Some [j_; k_]) (zmat 3 2 [1;0;2;1;0;3]%Z) false;
               COpenEdge k_ None; CPopNode b_; CAddNode c_ (Some [k_; j_]) (zmat 2 3 [1;2;3;4;5;6]%Z) false;
               CFixEdge j_ [1;2] false; CFix] : list (call ZT)).
  exists (fst (new_tn [i_] (Some 2))), (fst (run cs (fst (new_tn [i_] (Some 2))))).
  split; [vm_compute; reflexivity|]. split; [|vm_compute; auto].
  apply run_reach; [|vm_compute; reflexivity]. intros _ c Hc.
  repeat (destruct Hc as [<-|Hc]; [simpl; intuition discriminate|]). destruct Hc.
Qed.
(** A call that raises may break consistency: a rejected add_node leaves a node behind whose legs
    are not registered. *)
Theorem C12_after_failed_call_refuted :
  ~ forall (n n' : tn ZT) (c : call ZT) q,
      reach (fun _ c => names_given c) empty_tn n -> names_given c ->
      do_call c n = (n', Err q) -> consistent n'.
Proof.
  intros H.
  specialize (H empty_tn (fst (do_call (CAddNode a_ (Some [i_; j_]) (zvec [1;2]%Z) false) empty_tn))
                (CAddNode a_ (Some [i_; j_]) (zvec [1;2]%Z) false) IndexError (reach_nil _ _)).
  destruct H as (_ & _ & _ & H & _); [simpl; intuition discriminate|vm_compute; reflexivity|].
  specialize (H a_ (Node [i_; j_] true None) j_). vm_compute in H.
  destruct H as [H|H]; auto; discriminate.
Qed.
Print Assumptions C12_after_failed_call_refuted.

(** ** C13: bond dimensions are write-once *)

(** No call, whether it succeeds or raises, changes the dimension of an edge that still exists. *)
Theorem C13_dimension_never_changes :
  forall (T : Type) (PT : Payload T) (c : call T) (n : tn T) (e : name) (d : nat) (ed' : edge),
    edim n e = Some d -> get e (edges (fst (do_call c n))) = Some ed' -> e_dim ed' = Some d.
Proof.
  intros T PT c n e d ed' H G. refine (@call_stable T PT c n e d ed' _ G).
  unfold edim in H. destruct (get e (edges n)) as [ed|] eqn:Q; [exists ed; auto|discriminate].
Qed.
Print Assumptions C13_dimension_never_changes.
Example C13_never_changes_somewhere :
  edim ex_net j_ = Some 3 /\
  exists ed, get j_ (edges (fst (do_call (CFixEdge j_ [2] false) ex_net))) = Some ed /\ e_dim ed = Some 3.
Proof. split; [vm_compute; auto|]. eexists. split; vm_compute; reflexivity. Qed.

(** Calls that would give an edge another dimension fail: update_dimension and add_edge raise
    AssertionError, add_node and update_node do not return normally. *)
Theorem C13_other_dimension_rejected :
  forall (T : Type) (PT : Payload T) (n : tn T) (e : name) (d d' : nat),
    e <> NN -> has_dim n e d -> d' <> d ->
    do_call (CUpdateDim [(e, Some d')]) n = (n, Err AssertionError) /\
    do_call (CAddEdge e (Some d')) n = (n, Err AssertionError) /\
    (forall x legs t op sh i, ~ In NN legs -> pshape t = Some sh ->
       nth_error legs i = Some e -> nth_error sh i = Some (Some d') ->
       snd (do_call (CAddNode x (Some legs) t op) n) <> Ok tt) /\
    (forall x t nd sh i, get x (nodes n) = Some nd -> NoDup (n_legs nd) -> pshape t = Some sh ->
       nth_error (n_legs nd) i = Some e -> nth_error sh i = Some (Some d') ->
       snd (do_call (CUpdateNode x t) n) <> Ok tt).
Proof.
  intros T PT n e d d' NE Hd Ne. split; [apply update_dimension_other with d; auto|].
  split; [unfold do_call, drop, mbind; rewrite (add_edge_other NE Hd Ne); auto|].
  split.
  - intros x legs t op sh i NNl Hs Hl Hi Q. unfold do_call, drop, mbind in Q.
    destruct (add_node x (Some legs) t op n) as [n' [r|q]] eqn:E; [|discriminate].
    apply Ne. eapply add_node_other; eauto.
  - intros x t nd sh i G ND Hs Hl Hi Q. simpl in Q.
    destruct (update_node x t n) as [n' [r|q]] eqn:E; [|discriminate].
    apply Ne. eapply update_node_other; eauto.
Qed.
Print Assumptions C13_other_dimension_rejected.
Example C13_rejected_somewhere :
  has_dim ex_net j_ 3 /\ pshape (zmat 4 2 []) = Some [Some 4; Some 2] /\
  exists nd, get b_ (nodes ex_net) = Some nd /\ NoDup (n_legs nd) /\ nth_error (n_legs nd) 0 = Some j_.
Proof.
  split; [eexists; vm_compute; split; reflexivity|]. split; [vm_compute; auto|].
  eexists; split; [vm_compute; reflexivity|]. split; [|reflexivity].
  apply nodupb_NoDup. vm_compute; reflexivity.
Qed.

(** The dimensions of a stored tensor and of its edges agree in every position. *)
Definition fits {T} `{Payload T} (n : tn T) : Prop :=
  forall x nd t sh i e d d', get x (nodes n) = Some nd -> n_val nd = Some t -> pshape t = Some sh ->
    nth_error (n_legs nd) i = Some e -> nth_error sh i = Some (Some d) -> edim n e = Some d' -> d = d'.
(** update_node does not notice a mismatch on a repeated leg; rewire and merge_edges do not
    compare dimensions. *)
Theorem C13_fits_refuted_update_node :
  exists n : tn ZT, reach (fun _ c => names_given c) empty_tn n /\ fits n /\
    exists t n', do_call (CUpdateNode a_ t) n = (n', Ok tt) /\ ~ fits n'.
Proof.
  pose (cs := [CAddNode a_ (Some [i_; i_]) (zmat 2 2 [1;2;3;4]%Z) false] : list (call ZT)).
  exists (fst (run cs empty_tn)). split.
  { apply run_reach; [|vm_compute; reflexivity]. intros _ c Hc.
    repeat (destruct Hc as [<-|Hc]; [simpl; intuition discriminate|]). destruct Hc. }
  split.
  { intros x nd t sh i e d d' G V P L D E.
    assert (HN : nodes (fst (run cs empty_tn)) = [(a_, Node [i_; i_] true (Some (zmat 2 2 [1;2;3;4]%Z)))]) by reflexivity.
    rewrite HN in G. cbn [get fst snd] in G. destruct (eqb x a_); [|discriminate].
    inversion G; subst. simpl in V. inversion V; subst. simpl in P. inversion P; subst.
    destruct i as [|[|[|i]]]; simpl in L, D; inversion L; inversion D; subst; vm_compute in E; congruence. }
  exists (zmat 3 2 []), (fst (do_call (CUpdateNode a_ (zmat 3 2 [])) (fst (run cs empty_tn)))).
  split; [vm_compute; reflexivity|]. intros H.
  assert (Q : 3 = 2); [|discriminate].
  eapply (H a_ _ _ _ 0 i_ 3 2); [vm_compute; reflexivity|reflexivity|vm_compute; reflexivity|reflexivity|reflexivity|vm_compute; reflexivity].
Qed.
Print Assumptions C13_fits_refuted_update_node.
Theorem C13_fits_refuted_rewire :
  exists n : tn ZT, reach (fun _ c => names_given c) empty_tn n /\
    exists n', do_call (CRewire a_ 0 j_) n = (n', Ok tt) /\ ~ fits n'.
Proof.
  exists ex_net. split; [apply ex_reach|].
  exists (fst (do_call (CRewire a_ 0 j_) ex_net)). split; [vm_compute; reflexivity|]. intros H.
  assert (Q : 2 = 3); [|discriminate].
  eapply (H a_ _ _ _ 0 j_ 2 3); [vm_compute; reflexivity|reflexivity|vm_compute; reflexivity|reflexivity|reflexivity|vm_compute; reflexivity].
Qed.
Print Assumptions C13_fits_refuted_rewire.
Theorem C13_fits_refuted_merge_edges :
  exists n : tn ZT, reach (fun _ c => names_given c) empty_tn n /\
    exists n', do_call (CMergeEdges [i_; j_] NN) n = (n', Ok tt) /\ ~ fits n'.
Proof.
  exists ex_net. split; [apply ex_reach|].
  exists (fst (do_call (CMergeEdges [i_; j_] NN) ex_net)). split; [vm_compute; reflexivity|]. intros H.
  assert (Q : 2 = 3); [|discriminate].
  eapply (H a_ _ _ _ 0 j_ 2 3); [vm_compute; reflexivity|reflexivity|vm_compute; reflexivity|reflexivity|reflexivity|vm_compute; reflexivity].
Qed.
Print Assumptions C13_fits_refuted_merge_edges.

(** ** C14: failed edits leave the network as it was *)
Theorem C14_failed_edits_refuted :
  ~ forall (n n' : tn ZT) (c : call ZT) q,
      reach (fun _ c => names_given c) empty_tn n -> names_given c ->
      do_call c n = (n', Err q) ->
      nodes n' = nodes n /\ edges n' = edges n /\ adj n' = adj n /\ opens n' = opens n.
Proof.
  intros H.
  pose (c := CAddNode c_ (Some [k_; j_]) (zmat 2 4 []) false : call ZT).
  specialize (H ex_net (fst (do_call c ex_net)) c AssertionError ex_reach).
  destruct H as (H & _); [simpl; intuition discriminate|vm_compute; reflexivity|].
  apply (f_equal (@length _)) in H. vm_compute in H. discriminate.
Qed.
Print Assumptions C14_failed_edits_refuted.
(** The calls that can fail after they changed the network: on a network built by three
    successful calls, each of these raises and leaves a different network. *)
Definition ex14_calls : list (call ZT) :=
  [CAddNode a_ None (zmat 2 3 [1;2;3;4;5;6]%Z) false;
   CAddEdge k_ None; COpenEdge (NS "q") None; COpenEdge (NS "q") None].
Definition ex14 : tn ZT := fst (run ex14_calls empty_tn).
Definition fails_and_changes (n : tn ZT) (c : call ZT) : Prop :=
  exists q, snd (do_call c n) = Err q /\
    ~ (map fst (nodes (fst (do_call c n))) = map fst (nodes n) /\
       edges (fst (do_call c n)) = edges n /\
       map (fun p => option_map (@tval_shape ZK) (n_val (snd p))) (nodes (fst (do_call c n)))
       = map (fun p => option_map (@tval_shape ZK) (n_val (snd p))) (nodes n) /\
       adj (fst (do_call c n)) = adj n /\ opens (fst (do_call c n)) = opens n).
Theorem C14_refuted_for_each_call :
  reach (fun _ c => names_given c) empty_tn ex14 /\
  fails_and_changes ex14 (CUpdateNode a_ (zmat 2 4 [])) /\
  fails_and_changes ex14 (CUpdateDim [(k_, Some 2); (NI 0, Some 5)]) /\
  fails_and_changes ex14 (CMergeEdges [NI 0; NI 0] (NS "m")) /\
  fails_and_changes ex14 (CRewire a_ 0 (NS "m")) /\
  fails_and_changes (with_nodes ex14 []) CCompleteDelta.
Proof.
  split.
  { apply run_reach; [|vm_compute; reflexivity]. intros _ c Hc.
    repeat (destruct Hc as [<-|Hc]; [simpl; intuition discriminate|]). destruct Hc. }
  split; [eexists; split; [vm_compute; reflexivity|intros (A & B & C & D & E)]; vm_compute in C; discriminate|].
  split; [eexists; split; [vm_compute; reflexivity|intros (A & B & C & D & E)]; vm_compute in B; discriminate|].
  split; [eexists; split; [vm_compute; reflexivity|intros (A & B & C & D & E)]; vm_compute in B; discriminate|].
  split; [eexists; split; [vm_compute; reflexivity|intros (A & B & C & D & E)]; vm_compute in B; discriminate|].
  eexists; split; [vm_compute; reflexivity|intros (A & B & C & D & E)]; vm_compute in A; discriminate.
Qed.
Print Assumptions C14_refuted_for_each_call.

(** What holds: add_edge, open_edge, close_edge, pop_node, remove_node, fix_edge, fix_index, fix and
    update_dimension of one edge are atomic, and so is add_node when the name is taken. *)
Definition is_atomic {T} (c : call T) : Prop :=
  match c with
  | CAddEdge _ _ | COpenEdge _ _ | CCloseEdge _ | CPopNode _ | CRemoveNode _
  | CFixEdge _ _ _ | CFixIndex _ _ | CFix => True
  | CUpdateDim dic => length dic <= 1
  | CAddNode _ _ _ _ | CUpdateNode _ _ | CCompleteDelta | CMergeEdges _ _ | CRewire _ _ _ => False
  end.
Theorem C14_failed_edits :
  forall (T : Type) (PT : Payload T) (c : call T) (n n' : tn T) q,
    do_call c n = (n', Err q) ->
    is_atomic c \/ (exists x es t op, c = CAddNode x es t op /\ In x (keys (nodes n))) ->
    nodes n' = nodes n /\ edges n' = edges n /\ adj n' = adj n /\ opens n' = opens n.
Proof.
  intros T PT c n n' q E [A|(x & es & t & op & -> & Hin)].
  - apply (@checks_first_atomic T PT c n n' q); auto.
  - simpl in E. unfold drop, mbind in E. rewrite add_node_taken in E by auto.
    inversion E; subst; auto.
Qed.
Print Assumptions C14_failed_edits.
Example C14_somewhere :
  (exists n' q, do_call (CFixEdge j_ [7] false) ex_net = (n', Err q)) /\
  (exists n' q, do_call (CAddEdge j_ (Some 9)) ex_net = (n', Err q)).
Proof. split; eexists; eexists; vm_compute; reflexivity. Qed.

(** ** C08: delta completion *)
Theorem C08_complete_delta :
  forall (S : scalar) (n : tn (tval S)),
    (* a network built by edits, never edited with change_fix *)
    inv n -> fix_nodup n ->
    (* the names used by delta completion are free, and the open edges have dimensions *)
    delta_names_free n -> ~ In star (keys (nodes n)) ->
    (forall e, In e (opens n) -> exists d, edim n e = Some d) ->
    exists n', do_call CCompleteDelta n = (n', Ok tt) /\
      (forall o, tn_value (@tval_value S) n' o = tn_value (@tval_value S) n o) /\
      NoDup (opens n') /\
      (forall e, In e (opens n') ->
         (exists x nd, get x (nodes n') = Some nd /\ In e (n_legs nd)) /\
         (exists ed, get e (edges n') = Some ed /\ e_fix ed = None)) /\
      map (edim n') (opens n') = map (edim n) (opens n).
Proof.
  intros S n I F D St O.
  destruct (@complete_delta_correct S _ _ _ (tval_laws S) n I F D O St)
    as (n' & E & I' & _ & V & Ed & ND & At & _).
  exists n'. split; auto. split; auto. split; auto. split; auto.
  intros e He. destruct (At e He) as [(x & Hx) U]. split; auto.
  exists x. apply (wf_adj (proj1 I')). exact Hx.
Qed.
Print Assumptions C08_complete_delta.
Example C08_holds_somewhere :
  inv ex_net /\ fix_nodup ex_net /\ delta_names_free ex_net /\ ~ In star (keys (nodes ex_net)) /\
  (forall e, In e (opens ex_net) -> exists d, edim ex_net e = Some d).
Proof.
  split; [apply ex_inv|]. split; [apply ex_fix|]. split.
  { intros e k. split; intros _ Q; vm_compute in Q; intuition discriminate. }
  split; [intros Q; vm_compute in Q; intuition discriminate|].
  intros e He. vm_compute in He. destruct He as [<-|[<-|[<-|[]]]]; eexists; vm_compute; reflexivity.
Qed.
(** Without the name guard it is false: a user edge that carries the name of a delta edge. *)
Theorem C08_name_collision_refuted :
  exists n : tn ZT, inv n /\ fix_nodup n /\ ~ In star (keys (nodes n)) /\
    (forall e, In e (opens n) -> exists d, edim n e = Some d) /\
    snd (do_call CCompleteDelta n) = Ok tt /\
    exists o, tn_value (@tval_value ZK) (fst (do_call CCompleteDelta n)) o <> tn_value (@tval_value ZK) n o.
Proof.
  pose (cs := [CAddNode a_ (Some [i_; NT [i_; NI 1]]) (zmat 2 2 [1;2;3;4]%Z) false;
               COpenEdge i_ None; COpenEdge i_ None] : list (call ZT)).
  assert (R : snd (run cs empty_tn) = Ok tt) by (vm_compute; reflexivity).
  exists (fst (run cs empty_tn)). split.
  { eapply reach_inv; [|apply empty_inv]. apply run_reach; auto. intros _ c Hc.
    repeat (destruct Hc as [<-|Hc]; [simpl; intuition discriminate|]). destruct Hc. }
  split.
  { apply (@reach_fix_nodup ZT _ (fun _ => @no_change_fix ZT)) with (n := empty_tn); auto.
    - apply run_reach; auto. intros _ c Hc.
      repeat (destruct Hc as [<-|Hc]; [exact I|]). destruct Hc.
    - intros e ed fx Q; discriminate Q. }
  split; [intros Q; vm_compute in Q; intuition discriminate|].
  split; [intros e He; vm_compute in He; destruct He as [<-|[<-|[]]]; eexists; vm_compute; reflexivity|].
  split; [vm_compute; reflexivity|]. exists [0; 0]. vm_compute. discriminate.
Qed.
Print Assumptions C08_name_collision_refuted.

(** ** C09: fixing edges and open indices is slicing *)
Theorem C09_fix_index_slices :
  forall (S : scalar) (T : Type) (PT : Payload T) (pv : T -> list nat -> S) (n : tn T) i e d v,
    inv n -> fix_nodup n -> nth_error (opens n) i = Some e -> edim n e = Some d -> v < d ->
    exists n', do_call (CFixIndex i [v]) n = (n', Ok tt) /\
      forall o, tn_value pv n' o = tn_value pv n (ins_nth i v o).
Proof.
  intros S T PT pv n i e d v I F N D L.
  destruct (@fix_index_total T i e [v] d n N D) as [n' E]; [intros w [<-|[]]; auto|].
  exists n'. split; auto. intros o.
  rewrite (@value_fix_index S T pv i [v] n n' tt o); auto.
  - simpl. apply kadd_0_r.
  - apply I.
  - repeat constructor; simpl; tauto.
Qed.
Print Assumptions C09_fix_index_slices.
Theorem C09_fix_index_set :
  forall (S : scalar) (T : Type) (PT : Payload T) (pv : T -> list nat -> S) (n : tn T) i e d vals,
    inv n -> fix_nodup n -> nth_error (opens n) i = Some e -> edim n e = Some d ->
    NoDup vals -> (forall v, In v vals -> v < d) ->
    exists n', do_call (CFixIndex i vals) n = (n', Ok tt) /\
      forall o, tn_value pv n' o = sumf (fun v => tn_value pv n (ins_nth i v o)) vals.
Proof.
  intros S T PT pv n i e d vals I F N D ND L.
  destruct (@fix_index_total T i e vals d n N D L) as [n' E]. exists n'. split; auto. intros o.
  exact (@value_fix_index S T pv i vals n n' tt o (wf_edges (proj1 I)) F ND E).
Qed.
Print Assumptions C09_fix_index_set.
Theorem C09_fix_twice_intersects :
  forall (S : scalar) (T : Type) (PT : Payload T) (pv : T -> list nat -> S) (n : tn T) e d v1 v2,
    inv n -> edim n e = Some d -> (forall v, In v v1 -> v < d) -> (forall v, In v v2 -> v < d) ->
    exists n1 n2 n12,
      do_call (CFixEdge e v1 false) n = (n1, Ok tt) /\
      do_call (CFixEdge e v2 false) n1 = (n2, Ok tt) /\
      do_call (CFixEdge e (filter (fun v => mem v v2) v1) false) n = (n12, Ok tt) /\
      forall o, tn_value pv n2 o = tn_value pv n12 o.
Proof.
  intros S T PT pv n e d v1 v2 I D L1 L2.
  destruct (@fix_edge_total T e v1 d n D L1) as [n1 E1].
  destruct (@fix_edge_total T e v2 d n1) as [n2 E2]; [rewrite (fix_edge_edim _ _ _ _ E1); auto|auto|].
  destruct (@fix_edge_total T e (filter (fun v => mem v v2) v1) d n D) as [n12 E12].
  { intros v Hv. apply filter_In in Hv. apply L1; tauto. }
  exists n1, n2, n12. split; auto. split; auto. split; auto. intros o.
  exact (@value_fix_twice S T pv e v1 v2 n n1 n2 tt tt n12 tt o (wf_edges (proj1 I)) E1 E2 E12).
Qed.
Print Assumptions C09_fix_twice_intersects.
Theorem C09_fixes_commute :
  forall (S : scalar) (T : Type) (PT : Payload T) (pv : T -> list nat -> S) (n : tn T) e1 d1 v1 e2 d2 v2,
    inv n -> edim n e1 = Some d1 -> edim n e2 = Some d2 ->
    (forall v, In v v1 -> v < d1) -> (forall v, In v v2 -> v < d2) ->
    exists n1 n12 n2 n21,
      do_call (CFixEdge e1 v1 false) n = (n1, Ok tt) /\ do_call (CFixEdge e2 v2 false) n1 = (n12, Ok tt) /\
      do_call (CFixEdge e2 v2 false) n = (n2, Ok tt) /\ do_call (CFixEdge e1 v1 false) n2 = (n21, Ok tt) /\
      forall o, tn_value pv n12 o = tn_value pv n21 o.
Proof.
  intros S T PT pv n e1 d1 v1 e2 d2 v2 I D1 D2 L1 L2.
  destruct (@fix_edge_total T e1 v1 d1 n D1 L1) as [n1 E1].
  destruct (@fix_edge_total T e2 v2 d2 n1) as [n12 E12]; [rewrite (fix_edge_edim _ _ _ _ E1); auto|auto|].
  destruct (@fix_edge_total T e2 v2 d2 n D2 L2) as [n2 E2].
  destruct (@fix_edge_total T e1 v1 d1 n2) as [n21 E21]; [rewrite (fix_edge_edim _ _ _ _ E2); auto|auto|].
  exists n1, n12, n2, n21. split; auto. split; auto. split; auto. split; auto. intros o.
  exact (@value_fix_commute S T pv e1 v1 e2 v2 n n1 n12 tt tt n2 n21 tt tt o (wf_edges (proj1 I)) E1 E12 E2 E21).
Qed.
Print Assumptions C09_fixes_commute.
(** fixing an edge to a set of values sums the networks fixed to one of them *)
Theorem C09_fix_set_is_sum :
  forall (S : scalar) (T : Type) (PT : Payload T) (pv : T -> list nat -> S) (n : tn T) e d vals o,
    inv n -> edim n e = Some d -> NoDup vals -> (forall v, In v vals -> v < d) ->
    exists n' nv,
      do_call (CFixEdge e vals false) n = (n', Ok tt) /\
      (forall v, In v vals -> do_call (CFixEdge e [v] false) n = (nv v, Ok tt)) /\
      tn_value pv n' o = sumf (fun v => tn_value pv (nv v) o) vals.
Proof.
  intros S T PT pv n e d vals o I D ND L.
  destruct (@fix_edge_total T e vals d n D L) as [n' E].
  destruct (@value_fix_split S T pv e vals n n' tt o (wf_edges (proj1 I)) ND E) as (nv & H1 & H2).
  exists n', nv. auto.
Qed.
Print Assumptions C09_fix_set_is_sum.
Example C09_holds_somewhere :
  inv ex_net /\ fix_nodup ex_net /\ nth_error (opens ex_net) 1 = Some k_ /\ edim ex_net k_ = Some 2 /\
  edim ex_net j_ = Some 3 /\ edim ex_net i_ = Some 2.
Proof. split; [apply ex_inv|]. split; [apply ex_fix|]. vm_compute. auto. Qed.
(** With change_fix the values of an edge may repeat and a value is then counted twice. *)
Theorem C09_change_fix_refuted :
  exists n : tn ZT, reach (fun _ c => names_given c) empty_tn n /\ opens n = [] /\
    (exists ed, get i_ (edges n) = Some ed /\ e_fix ed = Some [1; 1]) /\
    tn_value (@tval_value ZK) n [] = 10%Z.
Proof.
  pose (cs := [CAddNode a_ (Some [i_]) (zvec [3;5]%Z) false; CFixEdge i_ [0;1] false; CFixEdge i_ [1] true]
              : list (call ZT)).
  exists (fst (run cs empty_tn)). split.
  { apply run_reach; [|vm_compute; reflexivity]. intros _ c Hc.
    repeat (destruct Hc as [<-|Hc]; [simpl; intuition discriminate|]). destruct Hc. }
  split; [vm_compute; auto|]. split; [eexists; split; vm_compute; reflexivity|]. vm_compute; reflexivity.
Qed.
Print Assumptions C09_change_fix_refuted.

(** ** C10: merging edges identifies their indices *)
Theorem C10_merge_edges :
  forall (S : scalar) (T : Type) (PT : Payload T) (pv : T -> list nat -> S) (n : tn T)
         (es : list name) (m : name) (D : nat),
    inv n -> fix_nodup n -> es <> [] -> NoDup es -> m <> NN ->
    (forall e, In e es -> edim n e = Some D) ->
    (* the target is new, or an edge of the same dimension *)
    (In m (keys (edges n)) -> edim n m = Some D) ->
    exists n', do_call (CMergeEdges es m) n = (n', Ok tt) /\
      forall o, tn_value pv n' o =
        esum (tn_dom n)
          (fun s => (kdelta (all_same s (if mem m (keys (edges n)) then m :: es else es)) *
                     (kdelta (eqb (map s (opens n)) o) * prodf (term_at s) (tn_terms pv n)))%K) env0.
Proof.
  intros S T PT pv n es m D I F NE ND Nm He Hm.
  destruct (@merge_edges_total T es m m n D (proj1 I) NE ND He) as [n' E]; auto.
  exists n'. split; [simpl; unfold drop, mbind; rewrite E; reflexivity|]. intros o.
  destruct (merge_edges_spec _ _ (proj1 I) E) as (Mg & _ & _).
  rewrite (@value_merged S T pv n es m n' D o (proj1 I) F Mg NE).
  - unfold merge_group. replace (has m (edges n)) with (mem m (keys (edges n))); [reflexivity|].
    apply eq_iff_eq_true. rewrite mem_In, has_In. reflexivity.
  - intros e ed Ie G. assert (Q : edim n e = Some D).
    { unfold merge_group in Ie. destruct (has m (edges n)) eqn:Hs; [|auto].
      destruct Ie as [<-|Ie]; auto. apply Hm. apply has_In; auto. }
    unfold edim in Q. rewrite G in Q. auto.
Qed.
Print Assumptions C10_merge_edges.
Example C10_holds_somewhere :
  edim ex_net i_ = Some 2 /\ edim ex_net k_ = Some 2 /\ ~ In (NS "m") (keys (edges ex_net)) /\
  NoDup [i_; k_].
Proof.
  split; [vm_compute; auto|]. split; [vm_compute; auto|].
  split; [intros Q; vm_compute in Q; intuition discriminate|].
  apply nodupb_NoDup. vm_compute; reflexivity.
Qed.
(** the choice of the name does not matter when none is given: some edge of the list is used *)
Theorem C10_merge_edges_default :
  forall (S : scalar) (T : Type) (PT : Payload T) (pv : T -> list nat -> S) (n n' : tn T)
         (es : list name) (m : name) (D : nat) (o : list nat),
    inv n -> fix_nodup n -> es <> [] -> (forall e, In e es -> edim n e = Some D) ->
    merge_edges es NN n = (n', Ok m) ->
    In m es /\
    tn_value pv n' o =
      esum (tn_dom n)
        (fun s => (kdelta (all_same s es) *
                   (kdelta (eqb (map s (opens n)) o) * prodf (term_at s) (tn_terms pv n)))%K) env0.
Proof.
  intros S T PT pv n n' es m D o I F NE He E.
  destruct (merge_edges_spec _ _ (proj1 I) E) as (Mg & _ & Hm). specialize (Hm eq_refl). split; auto.
  assert (Hs : has m (edges n) = true) by (apply has_In; apply (mg_in Mg); auto).
  rewrite (@value_merged S T pv n es m n' D o (proj1 I) F Mg NE).
  - unfold merge_group. rewrite Hs. apply esum_ext_all. intros s. f_equal. f_equal.
    unfold all_same. apply eq_iff_eq_true. rewrite !forallb_forall. split; intros H a Ha.
    + apply forallb_forall. intros b Hb. specialize (H a (or_intror Ha)).
      rewrite forallb_forall in H. apply H; right; auto.
    + apply forallb_forall. intros b Hb.
      assert (Ia : In a es) by (destruct Ha as [<-|Ha]; auto).
      assert (Ib : In b es) by (destruct Hb as [<-|Hb]; auto).
      specialize (H a Ia). rewrite forallb_forall in H. auto.
  - intros e ed Ie G. assert (Q : edim n e = Some D).
    { unfold merge_group in Ie. rewrite Hs in Ie. destruct Ie as [<-|Ie]; auto. }
    unfold edim in Q. rewrite G in Q. auto.
Qed.
Print Assumptions C10_merge_edges_default.
Example C10_default_somewhere : exists n', merge_edges [i_; k_] NN ex_net = (n', Ok k_).
Proof. eexists. vm_compute. reflexivity. Qed.

(** ** C11: opening and closing an edge *)

(** [put_back e v names o]: the index that has [v] at every position of [names] holding [e] and
    the entries of [o], in order, at the others *)
Fixpoint put_back (e : name) (v : nat) (names : list name) (o : list nat) : list nat :=
  match names with
  | [] => o
  | a :: r => if eqb e a then v :: put_back e v r o
              else match o with [] => [] | b :: q => b :: put_back e v r q end
  end.
(** Closing sums over the values of the edge; all its occurrences among the open edges go. *)
Theorem C11_close_sums :
  forall (S : scalar) (T : Type) (PT : Payload T) (pv : T -> list nat -> S) (n : tn T) e ed,
    inv n -> fix_nodup n -> In e (opens n) -> get e (edges n) = Some ed ->
    exists n', do_call (CCloseEdge e) n = (n', Ok tt) /\ ~ In e (opens n') /\
      forall o, tn_value pv n' o = sumf (fun v => tn_value pv n (put_back e v (opens n) o)) (edge_values ed).
Proof.
  intros S T PT pv n e ed I F N G.
  exists (fst (do_call (CCloseEdge e) n)). split; [reflexivity|]. split.
  { simpl. rewrite filter_In. intros [_ Q]. rewrite eqb_refl in Q. discriminate. }
  intros o. exact (@value_close_edge S T pv e ed n _ tt o (wf_edges (proj1 I)) F G N eq_refl).
Qed.
Print Assumptions C11_close_sums.
(** Opening splits the value: at [o ++ [v]] it is the value with the edge fixed to [v], and the
    pieces sum up to the old value. *)
Theorem C11_open_splits :
  forall (S : scalar) (T : Type) (PT : Payload T) (pv : T -> list nat -> S) (n : tn T) e ed bd d,
    inv n -> fix_nodup n -> get e (edges n) = Some ed -> e_dim ed = Some d ->
    exists n', do_call (COpenEdge e bd) n = (n', Ok tt) /\ opens n' = opens n ++ [e] /\
      (forall v o, v < d -> exists nv, do_call (CFixEdge e [v] false) n = (nv, Ok tt) /\
         tn_value pv n' (o ++ [v]) = tn_value pv nv o) /\
      (forall o, sumf (fun v => tn_value pv n' (o ++ [v])) (edge_values ed) = tn_value pv n o).
Proof.
  intros S T PT pv n e ed bd d I F G D.
  assert (Ie : In e (keys (edges n))) by (eapply get_Some_key; eauto).
  assert (E : do_call (COpenEdge e bd) n = (with_opens n (opens n ++ [e]), Ok tt)).
  { simpl. unfold open_edge, mbind, getst. rewrite (proj2 (has_In _ _) Ie). reflexivity. }
  exists (with_opens n (opens n ++ [e])). split; auto. split; auto. split.
  - intros v o L. destruct (@fix_edge_total T e [v] d n) as [nv Ev].
    { unfold edim; rewrite G; auto. }
    { intros w [<-|[]]; auto. }
    exists nv. split; auto.
    exact (@value_open_edge S T pv e bd n _ tt o v nv tt (wf_edges (proj1 I)) F E Ie Ev).
  - intros o. exact (@value_open_sum S T pv e bd n _ tt o ed (wf_edges (proj1 I)) F E G).
Qed.
Print Assumptions C11_open_splits.
Theorem C11_open_then_close :
  forall (S : scalar) (T : Type) (PT : Payload T) (pv : T -> list nat -> S) (n : tn T) e bd,
    In e (keys (edges n)) -> ~ In e (opens n) ->
    exists n1 n2, do_call (COpenEdge e bd) n = (n1, Ok tt) /\ do_call (CCloseEdge e) n1 = (n2, Ok tt) /\
      forall o, tn_value pv n2 o = tn_value pv n o.
Proof.
  intros S T PT pv n e bd Ie NO.
  assert (E : do_call (COpenEdge e bd) n = (with_opens n (opens n ++ [e]), Ok tt)).
  { simpl. unfold open_edge, mbind, getst. rewrite (proj2 (has_In _ _) Ie). reflexivity. }
  exists (with_opens n (opens n ++ [e])), (fst (do_call (CCloseEdge e) (with_opens n (opens n ++ [e])))).
  split; auto. split; auto. intros o.
  exact (@open_close S T pv e bd n _ tt _ tt o Ie NO E eq_refl).
Qed.
Print Assumptions C11_open_then_close.
Example C11_holds_somewhere :
  inv ex_net /\ fix_nodup ex_net /\ In i_ (opens ex_net) /\ In j_ (keys (edges ex_net)) /\
  ~ In j_ (opens ex_net) /\ exists ed, get i_ (edges ex_net) = Some ed /\ e_dim ed = Some 2.
Proof.
  split; [apply ex_inv|]. split; [apply ex_fix|]. split; [vm_compute; auto|]. split; [vm_compute; auto|].
  split; [intros Q; vm_compute in Q; intuition discriminate|].
  eexists; split; vm_compute; reflexivity.
Qed.
(** A bond dimension given for an existing edge is ignored, whatever it is. *)
Theorem C11_bond_dim_ignored :
  forall (T : Type) (PT : Payload T) (n : tn T) e bd, In e (keys (edges n)) ->
    do_call (COpenEdge e bd) n = (with_opens n (opens n ++ [e]), Ok tt).
Proof.
  intros T PT n e bd Ie. simpl. unfold open_edge, mbind, getst. rewrite (proj2 (has_In _ _) Ie). reflexivity.
Qed.
Print Assumptions C11_bond_dim_ignored.

(** ** C15: removing and re-adding a node; insertion order *)
Theorem C15_pop_then_add :
  forall (S : scalar) (T : Type) (PT : Payload T) (pv : T -> list nat -> S) (n n1 : tn T) x nd t,
    inv n -> pop_node x n = (n1, Ok nd) -> n_val nd = Some t ->
    (* the stored tensor has the shape its edges have *)
    pshape t = Some (map (edim n) (n_legs nd)) ->
    get x (nodes n) = Some nd /\ ~ In x (keys (nodes n1)) /\
    exists n2, do_call (CAddNode x (Some (n_legs nd)) t false) n1 = (n2, Ok tt) /\
      (forall o, tn_value pv n2 o = tn_value pv n o) /\
      (forall p, In p (adj n2) <-> In p (adj n)) /\ opens n2 = opens n.
Proof.
  intros S T PT pv n n1 x nd t I E V P.
  destruct (pop_add _ I E V P) as (G & NI' & n2 & E2 & SM & A).
  split; auto. split; auto. exists n2. split; [simpl; unfold drop, mbind; rewrite E2; reflexivity|].
  split; [intros o; symmetry; apply same_meaning_value; auto|]. split; auto.
  symmetry; apply (sm_opens SM).
Qed.
Print Assumptions C15_pop_then_add.
Example C15_pop_somewhere : exists n1 nd t,
  inv ex_net /\ pop_node a_ ex_net = (n1, Ok nd) /\ n_val nd = Some t /\
  pshape t = Some (map (edim ex_net) (n_legs nd)).
Proof.
  eexists; eexists; eexists. split; [apply ex_inv|]. split; [vm_compute; reflexivity|].
  split; [vm_compute; reflexivity|]. vm_compute; reflexivity.
Qed.
Theorem C15_insertion_order :
  forall (S : scalar) (T : Type) (pv : T -> list nat -> S) (n n' : tn T) (o : list nat),
    inv n -> inv n' -> opens n' = opens n ->
    (forall e, get e (edges n') = get e (edges n)) -> (forall x, get x (nodes n') = get x (nodes n)) ->
    tn_value pv n' o = tn_value pv n o.
Proof.
  intros S T pv n n' o I I' O GE GN. apply same_meaning_value. destruct I as [W _], I' as [W' _].
  constructor; try (apply W); try (apply W').
  - intros e. rewrite GE; auto.
  - intros x. rewrite GN; auto.
  - auto.
Qed.
Print Assumptions C15_insertion_order.
Example C15_order_somewhere :
  let n' := TN (rev (nodes ex_net)) (rev (edges ex_net)) (rev (adj ex_net)) (opens ex_net) 0 in
  nodes n' <> nodes ex_net /\ keys (nodes n') = [b_; a_] /\ keys (edges n') = [k_; j_; i_].
Proof.
  split; [|vm_compute; auto]. intros Q. apply (f_equal (map fst)) in Q. vm_compute in Q. discriminate.
Qed.

(** ** C20: automatically named edges are new *)
Theorem C20_auto_names_fresh_refuted :
  ~ forall (n n' : tn ZT) d e,
      reach (fun _ c => names_given c) empty_tn n -> add_edge NN d n = (n', Ok e) -> ~ In e (keys (edges n)).
Proof.
  intros H.
  pose (cs := [CAddEdge (NS "_0") (Some 2)] : list (call ZT)).
  assert (R : reach (fun _ => @names_given ZT) empty_tn (fst (run cs empty_tn))).
  { apply run_reach; [|vm_compute; reflexivity]. intros _ c Hc.
    repeat (destruct Hc as [<-|Hc]; [simpl; intuition discriminate|]). destruct Hc. }
  refine (H _ (fst (add_edge NN None (fst (run cs empty_tn)))) None (NS "_0") R _ _); vm_compute; auto.
Qed.
Print Assumptions C20_auto_names_fresh_refuted.
(** A copy restarts the counter, so even without user names of that form the next automatic name
    on a copy may exist already. *)
Theorem C20_copy_refuted :
  exists n : tn ZT, fst (add_edge NN (Some 2) empty_tn) = n /\
    exists n', add_edge NN (Some 2) (copy_tn n) = (n', Ok (auto_name 0)) /\
      In (auto_name 0) (keys (edges (copy_tn n))) /\ length (edges n') = length (edges n).
Proof. eexists; split; [reflexivity|]. eexists; split; vm_compute; auto. Qed.
Print Assumptions C20_copy_refuted.
(** What holds: if user-chosen new edge names never have the form "_k", every automatic name is
    new and nothing else changes. *)
Theorem C20_auto_names_fresh :
  forall (T : Type) (PT : Payload T) (start : list name) (sd : option nat) (n0 n n' : tn T) d r,
    ~ In NN start -> (forall e k, In e start -> e <> auto_name k) ->
    new_tn start sd = (n0, Ok tt) ->
    reach (fun n c => names_given c /\
             forall e, In e (edge_names c) -> In e (keys (edges n)) \/ forall k, e <> auto_name k) n0 n ->
    add_edge NN d n = (n', r) ->
    exists e, r = Ok e /\ ~ In e (keys (edges n)) /\ keys (edges n') = keys (edges n) ++ [e] /\
      get e (edges n') = Some (Edge d None) /\
      (forall a, a <> e -> get a (edges n') = get a (edges n)) /\
      nodes n' = nodes n /\ adj n' = adj n /\ opens n' = opens n.
Proof.
  intros T PT start sd n0 n n' d r NNs NA E0 R E.
  destruct (new_tn_ok start sd NNs E0) as (I & _ & _ & _ & _ & AF).
  assert (AFn : auto_free n).
  { eapply (@reach_auto_free T PT); [|exact R|exact I|auto]. intros m c Hc. exact Hc. }
  destruct (add_edge_fresh_name d AFn E) as (e & H1 & H2 & H3 & H4 & H5 & H6 & H7 & H8 & _).
  exists e. auto 10.
Qed.
Print Assumptions C20_auto_names_fresh.
Example C20_holds_somewhere :
  exists n0 n : tn ZT, new_tn [i_] (Some 2) = (n0, Ok tt) /\
    reach (fun n c => names_given c /\
             forall e, In e (edge_names c) -> In e (keys (edges n)) \/ forall k, e <> auto_name k) n0 n /\
    In (auto_name 0) (keys (edges n)) /\ In (auto_name 1) (keys (edges n)).
Proof.
  pose (cs := [CAddEdge NN (Some 3); CAddNode a_ (Some [i_; j_]) (zmat 2 3 [1;2;3;4;5;6]%Z) true;
               CAddEdge NN None] : list (call ZT)).
  exists (fst (new_tn [i_] (Some 2))), (fst (run cs (fst (new_tn [i_] (Some 2))))).
  split; [vm_compute; reflexivity|]. split; [|vm_compute; tauto].
  apply run_reach; [|vm_compute; reflexivity]. intros n c Hc.
  assert (Q : forall e k, In e [NN; i_; j_] -> e <> auto_name k).
  { intros e k He Q. unfold auto_name in Q. destruct He as [<-|[<-|[<-|[]]]]; discriminate Q. }
  repeat (destruct Hc as [<-|Hc]; [simpl; split; [intuition discriminate|]; intros e He; right; intros k; apply Q; simpl; tauto|]).
  destruct Hc.
Qed.
