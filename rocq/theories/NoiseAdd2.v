(** * add_noise: the noisy operation, and the circuit *)
From Coq Require Import Sorting.Permutation Sorting.Sorted.
From Verif Require Import Base Scalar NetSpec Sums NetAlg ModelArray ModelTN TNInv TNOps TNSpec TNValue TNExact TNEdit
  TNEdit2 ModelVal ModelOps OpsSpec OpsProofs OpsValue ModelContract ContractExec NameOrder CircSpec CircSum CircOrder ModelCircuit CircSem CircShape
  CircWire CircStep CircNet CircCtrl CircWhen CircOp CircMain CircBuild CircUse DensSpec CircDens CircDensNet CircDensOp CircPure ChanCirc CircFlat FlatSpec CircNest CircNest2 CircNest3
  ModelNoise NoisySpec NoiseAdd.
Set Implicit Arguments.

Section Add.
  Variable S : scalar.
  Notation op := (op S).
  Context (nz : op).
  Hypothesis Wz : op_wf nz.
  Hypothesis Ez : op_shape nz = Ok [RW [LI; LO]].

  Definition good (o : op) (sh : list role) : Prop := op_wf o /\ op_shape o = Ok sh /\ numbered o /\ clean sh.
  Definition noisy_list (o : op) (n : nat) : circ op := inner o ++ map (noise_gate nz) (outputs o (range_names n)).

  Lemma outputs_In (o : op) qs q : NoDup qs -> length qs = length (shape_or o) ->
    (In q (outputs o qs) <-> In q qs /\ ends_out (word_at (Act qs (map role_word (shape_or o)) (fun _ _ => k0 (s := S))) q) = true).
  Proof. intros N L. rewrite (@outputs_acts S o qs (fun _ _ => k0)) by auto. unfold act_outs. rewrite filter_In. reflexivity. Qed.
  Lemma outputs_NoDup (o : op) qs : NoDup qs -> length qs = length (shape_or o) -> NoDup (outputs o qs).
  Proof. intros N L. rewrite (@outputs_acts S o qs (fun _ _ => k0)) by auto. apply NoDup_filter; auto. Qed.

  Lemma noisy_list_ok (o : op) sh : good o sh ->
    (forall k g, In (k, g) (noisy_list o (length sh)) -> op_wf (g_op g)) /\ gates_ok (noisy_list o (length sh)) /\
    (forall q, used (noisy_list o (length sh)) q <-> In q (range_names (length sh))) /\
    (forall q, alternating (history (map (@gate_act S) (noisy_list o (length sh))) q)) /\
    (forall q, alike (word_at (whole o) q) (history (map (@gate_act S) (noisy_list o (length sh))) q)).
  Proof.
    intros (W & Es & Nu & C). destruct (inner_ok W Es Nu C) as (I1 & I2 & I3 & I4 & I5).
    assert (Ln : length (range_names (length sh)) = length (shape_or o)) by (rewrite range_length, (shape_or_eq _ Es); auto).
    pose proof (range_NoDup (length sh)) as Nr. pose proof (outputs_NoDup o Nr Ln) as No.
    assert (Io : forall q, In q (outputs o (range_names (length sh))) -> In q (range_names (length sh))) by (intros q Iq; apply (outputs_In o q Nr Ln) in Iq; tauto).
    unfold noisy_list.
    split.
    { intros k g I. apply in_app_iff in I as [I|I]; [eauto|]. apply in_map_iff in I as (q & E & Iq). inversion E; subst. exact Wz. }
    split.
    { intros k g I. apply in_app_iff in I as [I|I]; [eauto|]. apply in_map_iff in I as (q & E & Iq). inversion E; subst. cbn [g_qubits g_op].
      split; [repeat constructor; intros []|]. unfold op_len. rewrite Ez. reflexivity. }
    split.
    { intros q. split.
      - intros (k & g & I & Iq). apply in_app_iff in I as [I|I]; [apply I3; exists k, g; auto|]. apply in_map_iff in I as (x & E & Ix). inversion E; subst.
        destruct Iq as [<-|[]]. auto.
      - intros Iq. apply I3 in Iq as (k & g & I & Iq). exists k, g. split; auto. apply in_app_iff; auto. }
    assert (Hout : forall q, mem q (outputs o (range_names (length sh))) = true -> ends_out (history (map (@gate_act S) (inner o)) q) = true).
    { intros q M. apply mem_In in M. apply (outputs_In o q Nr Ln) in M as [_ M]. destruct (I5 q) as (_ & _ & <-).
      rewrite <- M. unfold whole, whole_gate, gate_act, gact, spec_of. cbn [map_gate snd g_qubits g_op fst]. rewrite (shape_or_eq _ Es). reflexivity. }
    split.
    - intros q. rewrite map_app, history_app, noise_history by auto. destruct (mem q (outputs o (range_names (length sh)))) eqn:M; [|rewrite app_nil_r; auto].
      apply alternating_join. split; auto. split; [cbn; split; auto; discriminate|]. right. right. rewrite Hout; auto.
    - intros q. rewrite map_app, history_app, noise_history by auto. destruct (mem q (outputs o (range_names (length sh)))) eqn:M; [|rewrite app_nil_r; auto].
      eapply alike_trans; [apply I5|]. apply Hout in M. destruct (history (map (@gate_act S) (inner o)) q) as [|a w] eqn:E; [discriminate|].
      split; [reflexivity|]. split; [reflexivity|]. rewrite ends_out_app by discriminate. exact M.
  Qed.

  Lemma noisy_op_eq (o : op) sh : good o sh -> exists t, noisy_op nz o = Ok (OCirc (stacked_after t (noisy_list o (length sh)))).
  Proof.
    intros Gd. pose proof Gd as (W & Es & Nu & C). destruct (inner_ok W Es Nu C) as (I1 & I2 & I3 & I4 & I5).
    destruct (noisy_list_ok Gd) as (J1 & J2 & J3 & J4 & J5).
    exists (1 + max_time (A := op) [])%Z. unfold noisy_op. rewrite (or_inner _ Es).
    assert (F0 : late_names_free (S := S) []) by (intros t qs _ []).
    rewrite (extend_ok I2 F0). cbn [app bind].
    destruct (@stacked_circ S (1 + max_time (A := op) [])%Z (inner o) (length sh) I1 I2 I3 I4) as (_ & _ & ->). cbn [bind].
    rewrite noise_each_extend.
    pose proof (extend_ok J2 F0) as E. unfold noisy_list in E. rewrite extend_app, (extend_ok I2 F0) in E. cbn [app bind] in E.
    match goal with |- context [positions role_out ?x] => assert (Ep : positions role_out x = positions role_out sh) end.
    { apply positions_map. rewrite map_map. cbn [role_out].
      transitivity (map ends_out (map (word_at (whole o)) (range_names (length sh)))).
      - rewrite map_map. apply map_ext. intros q. destruct (truncate_shape _ (I4 q)) as (_ & -> & _). destruct (I5 q) as (_ & _ & ->). auto.
      - unfold whole, whole_gate, gate_act, gact, spec_of. cbn [map_gate snd g_qubits g_op fst]. rewrite (shape_or_eq _ Es).
        rewrite words_self; [|apply range_NoDup|rewrite range_length, map_length; auto]. rewrite map_map. apply map_ext. intros [|w]; auto. }
    rewrite Ep, <- (map_map (fun a => NI (Z.of_nat a)) (noise_gate nz)), (positions_outputs _ Es), E. reflexivity.
  Qed.
End Add.
