(** * The default order finder suits every network contract() reaches *)
From Verif Require Import Base Scalar NetSpec ModelArray ModelTN TNInv TNOps TNDelta TNSpec TNValue TNExact ModelContract ContractTemplate
  ContractMain ContractMerge ContractFlat ModelVal ModelNest NestSpec NestExp ModelDeep DeepSpec DeepProofs
  OrderSpec ModelOrder OrderProofs OrderProofs2 OrderProofs3 OrderNet.
Set Implicit Arguments.
Open Scope nat_scope.

Section Find.
  Context {S : scalar}.
  Notation tval := (tval S).
  Notation net := (tn tval).
  Implicit Types (n m : net) (v : tval).
  Variable ord : list name -> list name.
  Hypothesis Hord : forall l, Permutation (ord l) l.

  (** more depth changes nothing *)
  Lemma expand_more : forall k xs n n', expand ord k xs n = (n', Ok tt) -> expand ord (Datatypes.S k) xs n = (n', Ok tt).
  Proof.
    induction k as [|k IH]; intros xs n n' E; [discriminate|].
    rewrite expand_S in *. revert E. generalize (match xs with None => keys (nodes n) | Some l => l end). intros l. revert n n'.
    induction l as [|x l IHl]; intros n n' E; [exact E|]. cbn [foreach] in *. unfold mbind at 1 in E. unfold mbind at 1.
    destruct (expand_node ord (expand ord k None) x n) as [n1 [[]|e]] eqn:E1; [|discriminate].
    assert (E2 : expand_node ord (expand ord (Datatypes.S k) None) x n = (n1, Ok tt)).
    { unfold expand_node, mbind at 1, getst at 1 in E1. unfold expand_node, mbind at 1, getst at 1. destruct (get x (nodes n)) as [nd|]; [|exact E1].
      destruct (n_val nd) as [[d|m|ts|c w]|]; try exact E1. unfold mbind at 1 in E1. unfold mbind at 1.
      destruct (pop_node x n) as [n0 [y|e]]; [|exact E1].
      destruct (expand ord k None (copy_tn m)) as [m1 [[]|e]] eqn:Em; [|discriminate]. rewrite (IH _ _ _ Em). exact E1. }
    rewrite E2. apply IHl; auto.
  Qed.
  Lemma expand_le k k' xs n n' : k <= k' -> expand ord k xs n = (n', Ok tt) -> expand ord k' xs n = (n', Ok tt).
  Proof. induction 1; auto. intros E. apply expand_more; auto. Qed.

  Lemma mapM_more {A B} (f g : A -> res B) l r : (forall a b, f a = Ok b -> g a = Ok b) -> mapM f l = Ok r -> mapM g l = Ok r.
  Proof.
    intros H. revert r. induction l as [|a l IH]; intros r E; [exact E|]. cbn [mapM] in *. destruct (f a) as [b|e] eqn:Ea; [|discriminate].
    rewrite (H _ _ Ea). cbn [bind] in *. destruct (mapM f l) as [q|e]; [|discriminate]. rewrite (IH q); auto.
  Qed.
  Lemma expand_and_delta_more k n p : expand_and_delta ord k n = Ok p -> expand_and_delta ord (Datatypes.S k) n = Ok p.
  Proof.
    unfold expand_and_delta, run_net, mbind. destruct (expand ord k None (copy_tn n)) as [n1 [[]|e]] eqn:E; [|discriminate].
    rewrite (expand_more _ _ _ E). auto.
  Qed.
  Lemma template_more (f g : tval -> res (nd S)) n o split t : (forall v a, f v = Ok a -> g v = Ok a) ->
    generate_template f n o split = Ok t -> generate_template g n o split = Ok t.
  Proof.
    intros H. unfold generate_template. cbv zeta. destruct (edge_fix [] (edges n)) as [f1|e]; [cbn [bind]|auto].
    destruct (shape_ints n) as [sh|e]; [cbn [bind]|auto]. destruct f1 as [fd1|]; auto.
    destruct (template_fix 1 (keys fd1) (nodes n) AIn) as [cs1 dref1].
    set (nc := drop_idle (fix_all (with_opens (copy_tn n) (opens n ++ split)))).
    destruct (edge_fix split (edges nc)) as [f2|e]; [cbn [bind]|auto]. destruct f2 as [fd2|]; auto.
    destruct (template_fix 2 (keys fd2) (nodes nc) dref1) as [cs2 dref2].
    match goal with |- context [run_net ?a ?b] => destruct (run_net a b) as [p|e]; [cbn [bind]|auto] end.
    match goal with |- context [run_net ?a ?b] => destruct (run_net a b) as [q|e]; [cbn [bind]|auto] end.
    match goal with |- bind ?a _ = _ -> _ => destruct a as [path|e]; [cbn [bind]|auto] end.
    match goal with |- bind ?a _ = _ -> bind ?b _ = _ => destruct a as [c|e] eqn:Ea; [|discriminate]; assert (Eb : b = Ok c); [|rewrite Eb; auto] end.
    revert Ea. apply mapM_more. intros r b. destruct (n_val (snd r)) as [v|]; auto.
    destruct (f v) as [a|] eqn:Ev; [|discriminate]. rewrite (H _ _ Ev). auto.
  Qed.
  Lemma contract_val_more memory find : forall k v a,
    contract_val ord memory find k v = Ok a -> contract_val ord memory find (Datatypes.S k) v = Ok a.
  Proof.
    induction k as [|k IH]; intros v a E; [discriminate|]. destruct v as [d|n|l|f w].
    - exact E.
    - cbn [contract_val] in E. remember (Datatypes.S k) as k1. cbn [contract_val].
      destruct (expand_and_delta ord k n) as [p|e] eqn:Ex; [|discriminate]. cbn [bind] in E.
      rewrite Heqk1 at 1. rewrite (expand_and_delta_more _ _ Ex). cbn [bind]. destruct (find (fst p)) as [[cost o] split].
      unfold compile in *. destruct (memory * 2 ^ 30 <? cost * 3 * 2 ^ 4)%Z; [discriminate|]. cbn [bind] in *.
      destruct (generate_template (contract_val ord memory find k) (fst p) o split) as [t|e] eqn:Et; [|discriminate]. cbn [bind] in *.
      rewrite (@template_more _ (contract_val ord memory find k1) _ _ _ _ IH Et). cbn [bind].
      destruct (node_data (contract_val ord memory find k) (fst p)) as [d|e] eqn:Ed; [|discriminate].
      assert (Q : node_data (contract_val ord memory find k1) (fst p) = Ok d); [|rewrite Q; exact E].
      revert Ed. apply mapM_more. intros q b. destruct (n_val (snd q)) as [t'|]; auto.
      destruct (contract_val ord memory find k t') as [b'|] eqn:Eq; [|discriminate]. rewrite (IH _ _ Eq). auto.
    - cbn [contract_val] in E. remember (Datatypes.S k) as k1. cbn [contract_val].
      destruct (mapM (fun p => contract_val ord memory find k (snd p)) l) as [rs|e] eqn:M; [|discriminate].
      rewrite (@mapM_more _ _ (fun p => contract_val ord memory find k (snd p)) (fun p => contract_val ord memory find k1 (snd p)) l rs); auto.
    - cbn [contract_val] in E. remember (Datatypes.S k) as k1. cbn [contract_val].
      destruct (contract_val ord memory find k w) as [b|e] eqn:W; [|discriminate]. rewrite (IH _ _ W). exact E.
  Qed.
  Lemma contract_val_le memory find k k' v a : k <= k' ->
    contract_val ord memory find k v = Ok a -> contract_val ord memory find k' v = Ok a.
  Proof. induction 1; auto. intros E. apply contract_val_more; auto. Qed.
  (** so one array is returned whatever the bound on the depth *)
  Theorem deep_array memory find v : well v -> finds_for ord memory find v ->
    exists k a, array_of v a /\ forall fuel, k <= fuel -> contract_val ord memory find fuel v = Ok a.
  Proof.
    intros W F. destruct (@deep_ok S ord Hord memory find v W F) as (k & H). destruct (H k (le_n k)) as (a & E & A).
    exists k, a. split; auto. intros fuel L. eapply contract_val_le; eauto.
  Qed.

  Lemma inside_well v n : inside v n -> well v -> well (VNet n).
  Proof.
    induction 1 as [n|n v m L _ IH|l p m Ip _ IH|f v m _ IH]; intros W; auto; inversion W; subst; auto.
  Qed.

  (** order_finder.py:36-63 with the default order_method: the order found is a function of the nodes, nothing is
      sliced; [cost] stands for the memory estimate *)
  Definition finder (sp : ostep -> opath) (cost : net -> Z) n : Z * order * list name :=
    (cost n, match default_finder sp (keys (nodes n)) with Ok o => pairs_of o | Err _ => [] end, []).

  Lemma suits_default memory sp cost v : well v -> good_paths sp -> (forall n, (cost n * 48 <= memory * 2 ^ 30)%Z) ->
    (forall n, inside v n -> no_hash n) -> finds_for ord memory (finder sp cost) v.
  Proof.
    intros W G Mem Nh n fuel n' In_ E. specialize (Nh n In_). pose proof (inside_well In_ W) as Wn.
    inversion Wn as [| | |n0 k R X Td Un Lf]; subst.
    destruct (@expand_ok S ord Hord (max k fuel) (copy_tn n) None (keys (nodes n)) (copy_regular R) eq_refl) as (n1 & E1 & X1).
    { apply (wf_nodes (proj1 (rg_inv R))). } { intros x Ix; exact Ix. }
    { apply expandable_copy. eapply expandable_le; [|exact X]. lia. }
    unfold expand_and_delta, run_net, mbind in E. destruct (expand ord fuel None (copy_tn n)) as [n2 [[]|e]] eqn:E2; [|discriminate].
    apply (@expand_le fuel (Datatypes.S (max k fuel))) in E2; [|lia]. rewrite E1 in E2. injection E2 as <-.
    destruct (complete_delta n1) as [n3 [[]|e]] eqn:E3; [|discriminate]. injection E as ->.
    assert (U1 : unreserved (keys (nodes n1))).
    { split; [intros J|intros w J]; apply (xp_names X1) in J as [J|(x & r & J & Q)]; destruct (Nh _ J) as (c & q & Qc & Nc).
      - simpl in Qc. unfold hash in *. congruence.
      - discriminate Q.
      - simpl in Qc. unfold hash in *. congruence.
      - rewrite Qc in Q. simpl in Q. unfold hash in *. congruence. }
    assert (U : unreserved (keys (nodes n'))).
    { destruct U1 as [U1 U2]. pose proof (@complete_delta_nm tval _ delta_named (fun x H => H) n1) as D. rewrite E3 in D. cbn [fst] in D. split.
      - intros J. apply D in J as [J|[Q|(e & q & Q)]]; [contradiction|discriminate Q|discriminate Q].
      - intros w J. apply D in J as [J|[Q|(e & q & Q)]]; [apply (U2 w J)|discriminate Q|discriminate Q]. }
    destruct (@default_finder_valid sp (keys (nodes n'))) as (o & Eo & _ & _ & V); auto.
    { pose proof (complete_delta_inv E3 (rg_inv (xp_reg X1))) as I3. apply (wf_nodes (proj1 I3)). }
    unfold finder. rewrite Eo. split; [constructor; intros e []|]. split; [exact V|]. split; [left; intros e _ []|apply Mem].
  Qed.
End Find.
