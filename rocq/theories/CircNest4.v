(** * Nested circuits: the tensors are those of the flat list *)
From Coq Require Import Sorting.Permutation Sorting.Sorted.
From Verif Require Import Base Scalar NetSpec Sums NetAlg ModelArray ModelTN TNInv TNOps TNSpec TNValue TNExact TNEdit
  TNEdit2 ModelVal ModelOps OpsSpec OpsProofs OpsValue ModelContract ContractExec NameOrder CircSpec CircSum CircOrder ModelCircuit CircSem CircShape
  CircWire CircStep CircNet CircCtrl CircWhen CircOp CircMain CircBuild CircUse DensSpec CircDens CircDensNet CircDensOp CircPure ChanCirc CircFlat FlatSpec CircNest CircNest2 CircNest3.
Set Implicit Arguments.

Section Final.
  Variable S : scalar.
  Notation op := (op S).

  Lemma flat_wires (o : op) Q l sh : op_wf o -> op_shape o = Ok sh -> NoDup Q -> length Q = length sh -> flat o Q l ->
    (forall q, starts_in (history (pure_acts l) q) = starts_in (word_at (one_act (o, Q)) q)) /\
    (forall q, ends_out (history (pure_acts l) q) = ends_out (word_at (one_act (o, Q)) q)).
  Proof.
    intros W Es NQ L F. destruct (flat_words F W Es NQ L) as [_ H]. change (pure_acts l) with (map (@one_act S) l).
    split; intros q; destruct (H q) as (_ & A & B); congruence.
  Qed.
  Lemma flat_counts (o : op) Q l sh : op_wf o -> op_shape o = Ok sh -> NoDup Q -> length Q = length sh -> flat o Q l ->
    length (wires_out Q (pure_acts l)) = count role_out sh /\ length (wires_in Q (pure_acts l)) = count role_in sh.
  Proof.
    intros W Es NQ L F. destruct (flat_wires W Es NQ L F) as [H1 H2].
    assert (Ls : length Q = length (shape_or o)) by (rewrite (shape_or_eq _ Es); auto). rewrite <- (shape_or_eq _ Es). split.
    - rewrite <- (@act_outs_count S Q (shape_or o) (op_amp o)) by auto. f_equal. unfold wires_out, act_outs. cbn [on]. apply filter_ext. exact H2.
    - rewrite <- (@act_ins_count S Q (shape_or o) (op_amp o)) by auto. f_equal. unfold wires_in, act_ins. cbn [on]. apply filter_ext. exact H1.
  Qed.

  Theorem flat_amp (o : op) Q l sh x y : op_wf o -> op_shape o = Ok sh -> NoDup Q -> length Q = length sh -> flat o Q l ->
    bits (count role_out sh) x -> bits (count role_in sh) y -> op_amp o x y = amplitude Q (pure_acts l) x y.
  Proof.
    intros W Es NQ L F Bx By. destruct (flat_wires W Es NQ L F) as [H1 H2].
    assert (Ls : length Q = length (shape_or o)) by (rewrite (shape_or_eq _ Es); auto).
    assert (Lo : op_len o = Ok (length Q)) by (unfold op_len; rewrite Es; simpl; congruence).
    assert (Wo : wires_out Q (pure_acts l) = act_outs (one_act (o, Q))) by (unfold wires_out, act_outs; cbn [on one_act snd]; apply filter_ext; exact H2).
    assert (Wi : wires_in Q (pure_acts l) = act_ins (one_act (o, Q))) by (unfold wires_in, act_ins; cbn [on one_act snd]; apply filter_ext; exact H1).
    rewrite <- (shape_or_eq _ Es) in Bx, By.
    assert (Bx' : bits (length (act_outs (one_act (o, Q)))) x) by (unfold one_act; cbn [fst snd]; rewrite act_outs_count; auto).
    assert (By' : bits (length (act_ins (one_act (o, Q)))) y) by (unfold one_act; cbn [fst snd]; rewrite act_ins_count; auto).
    transitivity (amplitude Q [one_act (o, Q)] x y).
    - symmetry. apply (@amplitude_single S Q (one_act (o, Q))); auto; [apply incl_refl| |];
        unfold wires_out, wires_in, act_outs, act_ins; cbn [on one_act snd]; apply filter_ext; intros q; rewrite history_one; auto.
    - unfold amplitude at 2. rewrite Wo, Wi. change (pure_acts l) with (map (@one_act S) l).
      rewrite (@flat_run S (fun q => q) (@one_act S) (fun _ => True) Q NQ) with (o := o) (qs := Q); auto.
      + unfold amplitude. cbn [run fold_left]. f_equal; [|f_equal].
        * f_equal. f_equal. unfold wires_in, act_ins; cbn [on one_act snd]. apply filter_ext. intros q. rewrite history_one; auto.
        * unfold wires_out, act_outs; cbn [on one_act snd]. apply filter_ext. intros q. rewrite history_one; auto.
      + intros. apply pure_den_circ; auto.
      + apply incl_refl.
      + apply basis_depends.
      + intros q _. apply bits_place. auto.
  Qed.

  Theorem flat_chan (o : op) Q l sh x y x' y' : op_wf o -> op_shape o = Ok sh -> NoDup Q -> length Q = length sh -> flat o Q l ->
    bits (count role_out sh) x -> bits (count role_in sh) y -> bits (count role_out sh) x' -> bits (count role_in sh) y' ->
    op_dens o x y x' y' = channel Q (dens_acts l) x y x' y'.
  Proof.
    intros W Es NQ L F Bx By Bx' By'. destruct (flat_wires W Es NQ L F) as [H1 H2]. destruct (flat_words F W Es NQ L) as [Lf _].
    assert (Ls : length Q = length (shape_or o)) by (rewrite (shape_or_eq _ Es); auto).
    assert (Lo : op_len o = Ok (length Q)) by (unfold op_len; rewrite Es; simpl; congruence).
    change (dens_acts l) with (map (@one_cact S) l).
    assert (Ft : Forall (@fits S) (map (@one_cact S) l)).
    { rewrite Forall_map. eapply Forall_impl; [|exact Lf]. intros p (_ & _ & Lp). apply op_len_shape in Lp as [_ Lp]. unfold fits. cbn. rewrite map_length. auto. }
    assert (Fo : fits (one_cact (o, Q))) by (unfold fits; cbn [one_cact c_on c_words fst snd]; rewrite map_length; auto).
    assert (Hs : forall q, history (map (@skel S) (map (@one_cact S) l)) q = history (pure_acts l) q).
    { intros q. apply words_history. clear. induction l as [|p l IH]; simpl; constructor; auto. }
    assert (Wo : wires_out (both Q) (map (@dbl S) (map (@one_cact S) l)) = act_outs (one_dact (o, Q))).
    { rewrite dbl_wires_out by auto. unfold one_dact. rewrite dbl_outs by auto. f_equal. unfold wires_out, act_outs; cbn [on one_cact skel snd c_on].
      apply filter_ext. intros q. rewrite Hs. apply H2. }
    assert (Wi : wires_in (both Q) (map (@dbl S) (map (@one_cact S) l)) = act_ins (one_dact (o, Q))).
    { rewrite dbl_wires_in by auto. unfold one_dact. rewrite dbl_ins by auto. f_equal. unfold wires_in, act_ins; cbn [on one_cact skel snd c_on].
      apply filter_ext. intros q. rewrite Hs. apply H1. }
    rewrite <- (shape_or_eq _ Es) in *.
    assert (Lso : length (act_outs (skel (one_cact (o, Q)))) = count role_out (shape_or o)) by (unfold skel, one_cact; cbn [fst snd c_on c_words]; apply act_outs_count; auto).
    assert (Lsi : length (act_ins (skel (one_cact (o, Q)))) = count role_in (shape_or o)) by (unfold skel, one_cact; cbn [fst snd c_on c_words]; apply act_ins_count; auto).
    assert (Bo : bits (length (act_outs (one_dact (o, Q)))) (x ++ x')).
    { unfold one_dact. rewrite dbl_outs by auto. unfold both. rewrite app_length, !map_length, Lso. apply bits_app; auto. }
    assert (Bi : bits (length (act_ins (one_dact (o, Q)))) (y ++ y')).
    { unfold one_dact. rewrite dbl_ins by auto. unfold both. rewrite app_length, !map_length, Lsi. apply bits_app; auto. }
    assert (NB : NoDup (both Q)) by (apply both_NoDup; auto).
    transitivity (amplitude (both Q) [one_dact (o, Q)] (x ++ x') (y ++ y')).
    - rewrite (@amplitude_single S (both Q) (one_dact (o, Q))); auto.
      + cbn [one_dact dbl amp]. rewrite Lso, Lsi. destruct Bx as [Bx _], By as [By _].
        rewrite !firstn_app_len, !skipn_app_len by auto. reflexivity.
      + apply incl_refl.
      + unfold wires_out, act_outs; cbn [on one_dact one_cact dbl c_on snd]; apply filter_ext; intros q; rewrite history_one; auto.
      + unfold wires_in, act_ins; cbn [on one_dact one_cact dbl c_on snd]; apply filter_ext; intros q; rewrite history_one; auto.
    - unfold channel, amplitude at 2. rewrite Wo, Wi. rewrite map_map.
      change (fun p : op * list name => dbl (one_cact p)) with (@one_dact S).
      rewrite (@flat_run S both (@one_dact S) (fun _ => True) Q NB) with (o := o) (qs := Q); auto.
      + unfold amplitude. cbn [run fold_left]. f_equal; [|f_equal].
        * f_equal. f_equal. unfold wires_in, act_ins; cbn [on one_dact one_cact dbl c_on snd]. apply filter_ext. intros q. rewrite history_one; auto.
        * unfold wires_out, act_outs; cbn [on one_dact one_cact dbl c_on snd]. apply filter_ext. intros q. rewrite history_one; auto.
      + intros p Ip. cbn. apply both_incl. auto.
      + intros. apply dens_den_circ; auto.
      + apply incl_refl.
      + apply basis_depends.
      + intros q _. apply bits_place. auto.
  Qed.

  (** there is a flat list *)
  Theorem flat_exists (o : op) : op_wf o -> forall qs, op_len o = Ok (length qs) -> exists l, flat o qs l.
  Proof.
    induction 1 as [| | | | | |c N Wg IH G|]; intros qs L; try (eexists; apply flat_one; intros c0; discriminate).
    apply op_len_shape in L as [Es L]. assert (G' : gates_ok c) by exact G. destruct (circ_facts G' Es) as (Q & AQ & _).
    pose proof (all_qubits_register _ AQ) as Rg. assert (T : time_ordered c (in_order c)) by (split; [apply in_order_perm|apply in_order_sorted]).
    destruct (circ_known G' Es T Rg) as (NR & Lsh & _ & _ & _ & Ip & _).
    assert (H : exists ls, flat_gates Q qs (in_order c) ls).
    { revert Ip. generalize (in_order c) as l. clear -IH G. induction l as [|[k g] l IHl]; intros Ip; [eexists; constructor|].
      destruct IHl as [ls Fl]; [intros p I; apply Ip; simpl; auto|]. assert (I : In (k, g) c) by (apply Ip; simpl; auto).
      destruct (IH k g I (map (wire_to Q qs) (g_qubits g))) as [l1 F1]; [rewrite map_length; apply (G k g I)|].
      eexists. constructor; eauto. }
    destruct H as [ls Fl]. exists ls. apply flat_circ with (gates := in_order c) (Q := Q); auto. congruence.
  Qed.
End Final.
