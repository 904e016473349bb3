(** The density tensor of an operation contracts. *)
From Coq Require Import Sorting.Permutation Sorting.Sorted.
From Verif Require Import Base Scalar NetSpec Sums NetAlg ModelArray ModelTN TNInv TNOps TNSpec TNMerge TNDelta TNValue
  TNValue2 TNExact TNEdit TNEdit2 ModelVal ModelOps OpsSpec OpsProofs OpsValue ModelNest NestSpec NestExp NestSound ModelContract ModelDeep DeepSpec
  ContractExec NameOrder CircSpec CircSum CircOrder ModelCircuit CircSem CircShape
  CircWire CircStep CircNet CircCtrl CircOp CircMain DensSpec CircDens CircDensNet CircDensOp CoreVal CoreSpec CoreNet CoreOps CoreDens CorePure CorePureOp.
Set Implicit Arguments.
Local Open Scope nat_scope.

Section CoreOp.
  Variable S : scalar.
  Notation tval := (tval S).
  Notation op := (op S).

  Lemma places_length sh : length (places sh) = count role_out sh + count role_in sh.
  Proof. unfold places. rewrite app_length, !repeat_length. auto. Qed.

  Lemma dens_circ_gv (c : circ op) sh v : NoDup (keys c) -> gates_ok c -> op_shape (OCirc c) = Ok sh ->
    (forall k g, In (k, g) c -> density_ok (dens (g_op g)) (shape_or (g_op g)) (op_dens (g_op g))) ->
    (forall k g, In (k, g) c -> gate_name k /\ exists v, dens (g_op g) = Ok v /\ gv (places (shape_or (g_op g)) ++ places (shape_or (g_op g))) v) ->
    dens (OCirc c) = Ok v -> gv (places sh ++ places sh) v /\ named v.
  Proof.
    intros N G Es IH IV Ev. destruct (circ_facts G Es) as (Q & AQ & Ap & Al & Gk & _ & Co & Ci & Am).
    set (sk := map (@skel S) (map (xcact (@dspec S)) (in_order c))).
    assert (Same : Forall2 (fun g h => on g = on h /\ words g = words h) sk (circ_acts (map_circ (@spec_of S) c))).
    { unfold sk, circ_acts. rewrite in_order_map. unfold map_circ. rewrite !map_map. clear. generalize (in_order c) as l.
      induction l as [|[k [t q a]] l IH]; simpl; constructor; auto. }
    assert (Hh := words_history Same).
    assert (Wo : wires_out Q sk = wires_out Q (circ_acts (map_circ (@spec_of S) c))).
    { unfold wires_out. apply filter_ext. intros q. rewrite Hh; auto. }
    assert (Wi : wires_in Q sk = wires_in Q (circ_acts (map_circ (@spec_of S) c))).
    { unfold wires_in. apply filter_ext. intros q. rewrite Hh; auto. }
    rewrite dens_circ in Ev. unfold places. rewrite Co, Ci, <- Wo, <- Wi.
    apply (@dens_net_gv S op (fun a => info_of a (dens a)) (@dspec S) c Q); auto.
    - apply Forall_forall. intros [k g] I. destruct (G k g I) as [Nq L]. apply op_len_shape in L as [L1 L2].
      split; [|split; auto]. split; simpl; auto. apply (IH k); auto.
    - intros [k g] I. destruct (IV k g I) as (Gn & u & Eu & Gu). split; auto. exists u. split; auto.
    - unfold apart_ok in *. clear -Ap. unfold tacts, map_circ in *. rewrite map_map in *.
      induction c as [|[k [t q a]] c IH]; simpl in *; [constructor|]. inversion Ap; subst. constructor; auto.
      rewrite Forall_map in *. eapply Forall_impl; [|exact H1]. intros [k' [t' q' a']]. simpl. auto.
    - intros q. specialize (Al q). rewrite <- Hh in Al. unfold sk in Al. rewrite skel_acts in Al.
      unfold circ_acts. rewrite in_order_map. unfold tacts in Al. rewrite map_map in Al. exact Al.
  Qed.

  Lemma pure_op_gv (o : op) sh (v v' : tval) : tensor_ok (conv o None) sh (op_amp o) -> conv o None = Ok v -> gv (places sh) v -> pure_density v = Ok v' ->
    gv (places sh ++ places sh) v' /\ named v'.
  Proof.
    intros (u & Eu & _ & Su & _) E G P. rewrite E in Eu. injection Eu as <-.
    eapply pure_density_gv; eauto. rewrite places_length. auto.
  Qed.

  Theorem dens_gv (o : op) : op_wf o -> no_super o -> plain_op o -> forall sh v, op_shape o = Ok sh -> tensor_density o = Ok v ->
    gv (places sh ++ places sh) v /\ named v.
  Proof.
    unfold tensor_density. intros W Ns. induction Ns as [sa sh d|sa sh d|b|b|sh d|b c|c NsI IH]; intros P s v Es Ev.
    - destruct (proj1 (conv_ok W) eq_refl) as (s' & E' & T). rewrite Es in E'. injection E' as <-. inversion P as [? ? ? Pd| | | | | |]; subst.
      simpl in Es. injection Es as <-. cbn [dens conv bind] in Ev. eapply pure_op_gv; eauto; [reflexivity|]. apply data_gv; auto.
    - destruct (proj1 (conv_ok W) eq_refl) as (s' & E' & T). rewrite Es in E'. injection E' as <-. inversion P as [|? ? a| | | | |]; subst.
      simpl in Es. injection Es as <-. assert (T' := T). destruct T' as (u & Eu & _ & Su & _). cbn [dens] in Ev. rewrite Eu in Ev. cbn [bind] in Ev.
      eapply pure_op_gv; eauto. inversion W as [|? ? ? Cc Sd| | | | | |]; subst.
      eapply ctrl_gv; [|exact Eu]. exact Sd.
    - destruct (proj1 (conv_ok W) eq_refl) as (s' & E' & T). rewrite Es in E'. injection E' as <-.
      cbn [dens conv bind] in Ev. eapply pure_op_gv; eauto; [reflexivity|]. apply data_gv; exact I.
    - destruct (proj1 (conv_ok W) eq_refl) as (s' & E' & T). rewrite Es in E'. injection E' as <-.
      cbn [dens conv bind] in Ev. eapply pure_op_gv; eauto; [reflexivity|]. apply data_gv; exact I.
    - inversion P as [| | | |? ? Pd| |]; subst. simpl in Es. injection Es as <-. injection Ev as <-. apply data_gv; auto.
    - destruct (proj1 (conv_ok W) eq_refl) as (s' & E' & T). rewrite Es in E'. injection E' as <-.
      change (dens (OCCirc b c)) with (do v <- conv (OCCirc b c) None; pure_density v) in Ev.
      destruct (conv (OCCirc b c) None) as [u|] eqn:Eu; [|discriminate]. cbn [bind] in Ev. eapply pure_op_gv; eauto; [rewrite Eu; exact T|].
      apply (proj1 (conv_gv W P eq_refl Es)). auto.
    - inversion W as [| | | | | |? N Wg G|]; subst. inversion P as [| | | | |? Pg|]; subst.
      assert (Sh : forall k g, In (k, g) c -> op_shape (g_op g) = Ok (shape_or (g_op g))).
      { intros k g I. destruct (G k g I) as [_ L]. apply op_len_shape in L. tauto. }
      assert (Nsg : forall k g, In (k, g) c -> no_super (g_op g)) by (intros k g I; apply (NsI k g I)).
      eapply dens_circ_gv; eauto.
      + intros k g I. apply dens_ok; eauto.
      + intros k [t qs a] I. destruct (Pg k t qs a I) as [Gn Pa]. split; auto. cbn [g_op].
        destruct (@dens_ok S a (Wg _ _ I) (Nsg _ _ I) _ (Sh _ _ I)) as (u & Eu & _). exists u. split; auto.
        apply (IH k (Gate t qs a) I); auto; [apply (Wg _ _ I)|apply (Sh _ _ I)].
  Qed.
End CoreOp.
