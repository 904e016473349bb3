(** The tensor of a pure operation contracts. *)
From Coq Require Import Sorting.Permutation Sorting.Sorted.
From Verif Require Import Base Scalar NetSpec Sums NetAlg ModelArray ModelTN TNInv TNOps TNSpec TNMerge TNDelta TNValue
  TNValue2 TNExact TNEdit TNEdit2 ModelVal ModelOps OpsSpec OpsProofs OpsValue ModelNest NestSpec NestExp NestSound ModelContract ModelDeep DeepSpec
  ContractExec NameOrder CircSpec CircSum CircOrder ModelCircuit CircSem CircShape
  CircWire CircStep CircNet CircCtrl CircWhen CircOp CircMain DensSpec CircDens CircDensNet CircDensOp CoreVal CoreSpec CoreNet CoreOps CoreDens CorePure.
Set Implicit Arguments.
Local Open Scope nat_scope.

Section CorePureOp.
  Variable S : scalar.
  Notation tval := (tval S).
  Notation op := (op S).
  Notation acts c := (map (fun p => gact (snd p)) c).

  Lemma ctl_net_gv cond (c : circ op) sh v : gates_ok c -> c <> [] -> StronglySorted (@earlier S) c ->
    op_shape (OCirc c) = Ok sh -> forallb role_unitary sh = true ->
    (forall k g, In (k, g) c -> controllable (g_op g) /\
       tensor_ok (conv (g_op g) (Some cond)) (RC :: shape_or (g_op g)) (when_amp cond (op_amp (g_op g)))) ->
    (forall k g, In (k, g) c -> exists v, conv (g_op g) (Some cond) = Ok v /\ gv (places (RC :: shape_or (g_op g))) v) ->
    ctl_net cond c = Ok v -> gv (places (RC :: sh)) v /\ named v.
  Proof.
    intros G Ne Ss Es U IH IV Run.
    destruct (circ_facts G Es) as (Q & AQ & Ap & Al & Gk & LQ & Co & Ci & Am).
    destruct (all_qubits_spec _ AQ) as (NQ & SQ & MQ).
    assert (Hinc : forall k g, In (k, g) c -> incl (g_qubits g) Q).
    { intros k g I q Iq. apply MQ, qubits_In. exists (k, g); auto. }
    set (Q' := NI 0 :: map (shifted Q) Q).
    assert (NQ' : NoDup Q').
    { unfold Q'. constructor; [apply shifted_0|]. apply map_inj_NoDup with (Q := Q); auto using incl_refl.
      intros x y. apply shifted_inj. }
    unfold ctl_net in Run. rewrite AQ in Run. cbn [bind] in Run.
    rewrite (@ctrl_circ_eq S op (fun a => ctl_info a (conv a (Some cond))) Q c [] 0) in Run; [|simpl; lia|simpl; lia|auto|simpl; tauto|].
    2:{ intros x g I. destruct (G x g I) as [N L]. apply op_len_shape in L as [L1 L2]. split; auto. split; [eauto|].
        eexists. simpl. rewrite L1. simpl. split; [reflexivity|]. simpl. auto. }
    cbn [app bind] in Run.
    set (c' := ctl_seq Q 0 c) in *.
    assert (Hc' : forall k g, In (k, g) c' -> exists k0 g0, In (k0, g0) c /\ g_qubits g = ctl_qubits Q (g_qubits g0) /\ g_op g = g_op g0).
    { intros k g I. apply ctl_seq_In in I as (k0 & g0 & I & E). exists k0, g0. auto. }
    assert (AQ' : all_qubits c' = Ok Q').
    { apply all_qubits_is; auto; [apply shifted_sorted; auto|]. intros q. rewrite qubits_In. split.
      - intros [<-|Iq].
        + destruct c as [|[k g] r]; [congruence|]. eexists. split; [left; reflexivity|]. simpl; auto.
        + apply in_map_iff in Iq as (x & <- & Ix). apply MQ, qubits_In in Ix as ([k g] & I & Ix).
          destruct (@ctl_seq_In' _ Q c 0%Z k g I) as (p & Ip & Ep & _). exists p. split; auto. rewrite Ep. right.
          apply in_map_iff. exists x; auto.
      - intros ([k g] & I & Iq). destruct (Hc' k g I) as (k0 & g0 & I0 & Eq & _). simpl in Iq. rewrite Eq in Iq.
        destruct Iq as [<-|Iq]; [left; auto|]. right. apply in_map_iff in Iq as (x & <- & Ix). apply in_map_iff. exists x. split; auto.
        eapply Hinc; eauto. }
    assert (T0 : Forall (fun g => NoDup (on g) /\ incl (on g) Q /\ through g) (acts (map_circ (@spec_of S) c))).
    { unfold map_circ. rewrite !Forall_map. apply Forall_forall. intros [k g] I. destruct (G k g I) as [N L].
      apply op_len_shape in L as [L1 L2]. simpl. split; auto. split; [eapply Hinc; eauto|].
      destruct (IH k g I) as [Cg _]. destruct (controllable_shape Cg) as (s & Es' & Us).
      apply gact_through with (sh := s); auto. rewrite (shape_or_eq _ Es') in L2. auto. }
    set (ra := map (ract (shifted Q)) (acts (map_circ (@spec_of S) c))).
    assert (T1 : Forall (fun g => NoDup (on g) /\ incl (on g) (map (shifted Q) Q) /\ through g) ra).
    { unfold ra. rewrite Forall_map. eapply Forall_impl; [|exact T0]. intros g (N & I & T). split; [|split].
      - simpl. apply map_inj_NoDup with (Q := Q); auto. intros x y; apply shifted_inj.
      - simpl. intros x Ix. apply in_map_iff in Ix as (y & <- & Iy). apply in_map; auto.
      - intros x Ix. simpl in Ix. apply in_map_iff in Ix as (y & <- & Iy).
        rewrite (@word_ract S (shifted Q) Q); auto. intros a b; apply shifted_inj. }
    assert (Egs : acts (map_circ (@ctl_spec S cond) c') = map (ctl (NI 0) cond) ra) by apply ctl_seq_acts.
    assert (T2 : Forall (fun g => through g) (map (ctl (NI 0) cond) ra)).
    { rewrite Forall_map. eapply Forall_impl; [|exact T1]. intros g (N & I & T). apply ctl_through; auto.
      intros X. apply I in X. apply shifted_0 in X; auto. }
    assert (Sorted' : StronglySorted (@gate_le _) (map_circ (@ctl_spec S cond) c')).
    { pose proof (ctl_seq_sorted Q c 0) as H. fold c' in H. revert H. generalize c'.
      induction 1 as [|p l S1 IH1 F]; simpl; constructor; auto. unfold map_circ. rewrite Forall_map. eapply Forall_impl; [|exact F].
      intros a La. unfold gate_le. cbn in *. apply Z.lt_le_incl. exact La. }
    assert (Apart' : apart_ok (map_circ (@ctl_spec S cond) c')).
    { pose proof (ctl_seq_sorted Q c 0) as H. fold c' in H. revert H. unfold apart_ok, tacts. generalize c'.
      induction 1 as [|p l S1 IH1 F]; simpl; constructor; auto. unfold map_circ. rewrite !Forall_map. eapply Forall_impl; [|exact F].
      intros a La E. cbn in E, La. rewrite E in La. destruct (Z.lt_irrefl _ La). }
    assert (Hist : forall q, history (circ_acts (map_circ (@ctl_spec S cond) c')) q = history (map (ctl (NI 0) cond) ra) q).
    { intros q. rewrite <- Egs. apply order_history; auto. }
    assert (Alt' : alt_ok (map_circ (@ctl_spec S cond) c')).
    { intros q. rewrite Hist. destruct (@history_through S (map (ctl (NI 0) cond) ra) q T2) as [->|(_ & _ & A)]; simpl; auto. }
    assert (Used : forall q, In q Q -> exists g, In g (acts (map_circ (@spec_of S) c)) /\ In q (on g)).
    { intros q Iq. apply MQ, qubits_In in Iq as ([k g] & I & Iq). eexists. split.
      - apply in_map_iff. eexists. split; [reflexivity|]. unfold map_circ. apply in_map_iff. exists (k, g). split; [reflexivity|auto].
      - simpl. auto. }
    assert (Used1 : forall q, In q (map (shifted Q) Q) -> exists g, In g ra /\ In q (on g)).
    { intros q Iq. apply in_map_iff in Iq as (x & <- & Ix). destruct (Used x Ix) as (g & Ig & Ix').
      exists (ract (shifted Q) g). split; [apply in_map; auto|]. simpl. apply in_map; auto. }
    assert (Used2 : forall q, In q Q' -> exists g, In g (map (ctl (NI 0) cond) ra) /\ In q (on g)).
    { intros q [<-|Iq].
      - destruct ra as [|g r] eqn:Er.
        + unfold ra in Er. destruct c as [|p r]; [congruence|discriminate].
        + eexists. split; [left; reflexivity|]. simpl; auto.
      - destruct (Used1 q Iq) as (g & Ig & Iq'). exists (ctl (NI 0) cond g). split; [apply in_map; auto|simpl; auto]. }
    destruct (@wires_all S Q' (map (ctl (NI 0) cond) ra) T2 Used2) as [Wi Wo].
    assert (Wi' : wires_in Q' (circ_acts (map_circ (@ctl_spec S cond) c')) = Q').
    { rewrite <- Wi at 2. unfold wires_in. apply filter_ext. intros q. rewrite Hist; auto. }
    assert (Wo' : wires_out Q' (circ_acts (map_circ (@ctl_spec S cond) c')) = Q').
    { rewrite <- Wo at 2. unfold wires_out. apply filter_ext. intros q. rewrite Hist; auto. }
    assert (LQ' : length Q' = Datatypes.S (length sh)) by (unfold Q'; simpl; rewrite map_length; auto).
    assert (Co' : count role_out (RC :: sh) = length Q').
    { rewrite LQ'. unfold count. simpl. f_equal. apply unitary_all; auto using unitary_out. }
    assert (Ci' : count role_in (RC :: sh) = length Q').
    { rewrite LQ'. unfold count. simpl. f_equal. apply unitary_all; auto using unitary_in. }
    unfold places. rewrite Co', Ci'.
    enough (X : gv (repeat false (length (wires_out Q' (circ_acts (map_circ (ctl_spec cond) c')))) ++
      repeat true (length (wires_in Q' (circ_acts (map_circ (ctl_spec cond) c'))))) v /\ named v) by (rewrite Wo', Wi' in X; exact X).
    apply (@circ_net_gv S op (fun a => ctl_info a (conv a (Some cond))) (ctl_spec cond) c' Q'); auto.
    { apply Forall_forall. intros [k g] I. destruct (Hc' k g I) as (k0 & g0 & I0 & Eq & Eo).
      destruct (G k0 g0 I0) as [N L]. apply op_len_shape in L as [L1 L2]. unfold good. simpl snd. rewrite Eq, Eo. split; [|split].
      - split; [simpl; rewrite L1; auto|]. simpl. apply IH with (k := k0); auto.
      - apply ctl_qubits_NoDup; auto. eapply Hinc; eauto.
      - simpl. rewrite map_length. auto. }
    { apply Forall_forall. intros [k g] I. reflexivity. }
    { intros [k g] I. destruct (Hc' k g I) as (k0 & g0 & I0 & Eq & Eo). split.
      - apply ctl_seq_times in I as (j & _ & _ & E). left. eauto.
      - intros _. simpl. rewrite Eo. apply (IV k0); auto. }
    { apply ctl_seq_keys. }
  Qed.

  Lemma stacked_gv cond sh (d : tval) v : forallb role_unitary sh = true ->
    ctrl_net (RC :: sh) (stacked cond sh d) = Ok v -> gv (places (RC :: sh)) v /\ named v.
  Proof.
    intros U E. unfold stacked in E. eapply ctrl_gv; [|exact E].
    assert (Co : count role_out sh = length sh) by (apply unitary_all; auto using unitary_out).
    assert (Ci : count role_in sh = length sh) by (apply unitary_all; auto using unitary_in).
    pose proof (count_out sh) as Lo. pose proof (count_in sh) as Li. cbn [tval_shape]. rewrite twos_dims.
    replace (count is_ctrl (RC :: sh)) with (1 + count is_ctrl sh) by reflexivity.
    replace (count is_in (RC :: sh)) with (count is_in sh) by reflexivity.
    replace (count is_out (RC :: sh)) with (count is_out sh) by reflexivity.
    cbn [nd_shape].
    replace (1 + count is_ctrl sh + 2 * (length sh - count is_ctrl sh))
      with (1 + count is_ctrl sh + count is_in sh + count is_out sh) by lia. reflexivity.
  Qed.

  Lemma conv_circ_gv (c : circ op) sh v : NoDup (keys c) -> gates_ok c -> op_pure (OCirc c) = Ok true -> op_shape (OCirc c) = Ok sh ->
    (forall k g, In (k, g) c -> op_wf (g_op g)) ->
    (forall k g, In (k, g) c -> gate_name k /\ forall v, conv (g_op g) None = Ok v -> gv (places (shape_or (g_op g))) v) ->
    conv (OCirc c) None = Ok v -> gv (places sh) v /\ named v.
  Proof.
    intros N G P Es W IV Run. destruct (pure_circ _ P) as [_ Pg].
    destruct (circ_facts G Es) as (Q & AQ & Ap & Al & Gk & _ & Co & Ci & Am).
    rewrite conv_circ in Run. unfold places. rewrite Co, Ci.
    assert (T : forall k g, In (k, g) c -> op_shape (g_op g) = Ok (shape_or (g_op g)) /\ tensor_ok (conv (g_op g) None) (shape_or (g_op g)) (op_amp (g_op g))).
    { intros k g I. destruct (proj1 (conv_ok (W k g I)) (Pg k g I)) as (sh' & E' & T). rewrite (shape_or_eq _ E'). auto. }
    apply (@circ_net_gv S op (fun a => info_of a (conv a None)) (@spec_of S) c Q); auto.
    - apply Forall_forall. intros [k g] I. destruct (G k g I) as [Nq L]. apply op_len_shape in L as [L1 L2].
      split; [|split; auto]. simpl. apply means_op; auto. apply (T k g I).
    - apply Forall_forall. intros [k g] I. unfold pure_gate. simpl. eauto.
    - intros [k g] I. destruct (IV k g I) as [Gn Gv]. split; auto. intros _. destruct (T k g I) as [_ (u & Eu & _)]. exists u. split; auto.
  Qed.

  Theorem conv_gv (o : op) : op_wf o -> plain_op o -> op_pure o = Ok true -> forall sh, op_shape o = Ok sh ->
    (forall v, conv o None = Ok v -> gv (places sh) v /\ named v) /\
    (controllable o -> forall cond v, conv o (Some cond) = Ok v -> gv (places (RC :: sh)) v /\ named v).
  Proof.
    induction 1 as [sa sh d Cd Nc Sd|sa sh d Cd Sd|b|b|sh d Cd Nc Sd|l ins outs Ne W IH Pu Po|c N W IH G|cond c W IH Pc Cc]; intros Pl P s Es.
    - simpl in Es. injection Es as <-. inversion Pl as [? ? ? Pd| | | | | |]; subst. split.
      + intros v E. injection E as <-. apply data_gv; auto.
      + intros C cond v E. inversion C as [? ? ? U| | |]; subst. simpl in E. rewrite U in E. simpl in E. eapply stacked_gv; eauto.
    - simpl in Es. injection Es as <-. inversion Pl as [|? ? a| | | | |]; subst. split.
      + intros v E. eapply ctrl_gv; [|exact E]. exact Sd.
      + intros C cond v E. inversion C as [|? ? ? U| |]; subst. simpl in E. rewrite U in E. simpl in E. eapply stacked_gv; eauto.
    - split; [|intros C; inversion C]. intros v E. injection E as <-. apply data_gv. exact I.
    - split; [|intros C; inversion C]. intros v E. injection E as <-. apply data_gv. exact I.
    - discriminate.
    - inversion Pl.
    - inversion Pl as [| | | | |? Pg|]; subst. destruct (pure_circ _ P) as [_ Pq].
      assert (Sh : forall k g, In (k, g) c -> op_shape (g_op g) = Ok (shape_or (g_op g))).
      { intros k g I. destruct (G k g I) as [_ L]. apply op_len_shape in L. tauto. }
      assert (Pg' : forall k g, In (k, g) c -> gate_name k /\ plain_op (g_op g)) by (intros k [t qs a] I; apply (Pg k t qs a I)).
      split.
      + intros v E. eapply conv_circ_gv; eauto. intros k g I. split; [apply (Pg' k g I)|]. intros u Eu.
        apply (proj1 (IH k g I (proj2 (Pg' k g I)) (Pq k g I) _ (Sh k g I)) u Eu).
      + intros C cond v E. rewrite conv_circ_ctl, P, Es in E. cbn [may_control bind] in E.
        inversion C as [| | |? sh' Ne Ss E' U Cg]; subst. rewrite Es in E'. injection E' as <-. rewrite U in E. cbn [bind] in E.
        assert (T : forall k g, In (k, g) c -> tensor_ok (conv (g_op g) (Some cond)) (RC :: shape_or (g_op g)) (when_amp cond (op_amp (g_op g)))).
        { intros k g I. apply (proj2 (conv_ok (W k g I))); eauto. }
        eapply ctl_net_gv; eauto. intros k g I. destruct (T k g I) as (u & Eu & _). exists u. split; auto.
        apply (proj2 (IH k g I (proj2 (Pg' k g I)) (Pq k g I) _ (Sh k g I)) (Cg k g I) cond u Eu).
    - split; [|intros C; inversion C]. intros v E. inversion Pl as [| | | | | |? ? Pl']; subst.
      change (op_shape (OCCirc cond c)) with (do sh <- op_shape (OCirc c); Ok (RC :: sh)) in Es.
      destruct (op_shape (OCirc c)) as [sh|] eqn:Esh; [|discriminate]. cbn [bind] in Es. injection Es as <-.
      apply (proj2 (IH Pl' Pc sh eq_refl) Cc cond v). rewrite conv_circ_ctl, Pc, Esh. cbn [may_control bind].
      inversion Cc as [| | |? sh' Ne Ss E' U Cg]; subst. rewrite Esh in E'. injection E' as <-. rewrite U. cbn [bind]. rewrite conv_ccirc in E. exact E.
  Qed.
End CorePureOp.
