(** * Nested circuits: the flat list has the same meaning *)
From Coq Require Import Sorting.Permutation Sorting.Sorted.
From Verif Require Import Base Scalar NetSpec Sums NetAlg ModelArray ModelTN TNInv TNOps TNSpec TNValue TNExact TNEdit
  TNEdit2 ModelVal ModelOps OpsSpec OpsProofs OpsValue ModelContract ContractExec NameOrder CircSpec CircSum CircOrder ModelCircuit CircSem CircShape
  CircWire CircStep CircNet CircCtrl CircWhen CircOp CircMain CircBuild CircUse DensSpec CircDens CircDensNet CircDensOp CircPure ChanCirc CircFlat FlatSpec CircNest.
Set Implicit Arguments.

Section Generic.
  Variable S : scalar.
  Notation op := (op S).
  Context (B : list name -> list name) (den : op * list name -> act S) (ex : op -> Prop) (Q : list name).
  Hypothesis NB : NoDup (B Q).
  Hypothesis den_on : forall p, incl (snd p) Q -> incl (on (den p)) (B Q).
  Hypothesis ex_circ : forall c k g, ex (OCirc c) -> In (k, g) c -> ex (g_op g).
  Hypothesis den_circ : forall (c gates : circ op) R' qs psi a, op_wf (OCirc c) -> ex (OCirc c) -> time_ordered c gates -> register c R' ->
    op_len (OCirc c) = Ok (length qs) -> NoDup qs -> incl qs Q -> depends_on (S := S) (B Q) psi -> (forall q, In q (B Q) -> a q < 2)%nat ->
    evolve (B Q) (den (OCirc c, qs)) psi a = run (B Q) (map den (map (moved R' qs) gates)) psi a.

  Lemma flat_run o qs l : flat o qs l -> op_wf o -> ex o -> op_len o = Ok (length qs) -> NoDup qs -> incl qs Q ->
    forall psi a, depends_on (S := S) (B Q) psi -> (forall q, In q (B Q) -> a q < 2)%nat ->
    run (B Q) (map den l) psi a = evolve (B Q) (den (o, qs)) psi a.
  Proof.
    intros F. refine (@flat_mut S
      (fun o qs l _ => op_wf o -> ex o -> op_len o = Ok (length qs) -> NoDup qs -> incl qs Q ->
         forall psi a, depends_on (S := S) (B Q) psi -> (forall q, In q (B Q) -> a q < 2)%nat ->
         run (B Q) (map den l) psi a = evolve (B Q) (den (o, qs)) psi a)
      (fun R' qs gates ls _ => NoDup R' -> NoDup qs -> length qs = length R' -> incl qs Q ->
         (forall k g, In (k, g) gates -> op_wf (g_op g) /\ ex (g_op g) /\ NoDup (g_qubits g) /\
            op_len (g_op g) = Ok (length (g_qubits g)) /\ incl (g_qubits g) R') ->
         forall psi a, depends_on (S := S) (B Q) psi -> (forall q, In q (B Q) -> a q < 2)%nat ->
         run (B Q) (map den ls) psi a = run (B Q) (map den (map (moved R' qs) gates)) psi a) _ _ _ _ o qs l F);
      clear o qs l F.
    - intros o qs No W X L Nq I psi a D Ba. reflexivity.
    - intros c qs gates R' ls T Rg L _ IH W X Lo Nq I psi a D Ba. inversion W as [| | | | | |? N Wg G|]; subst.
      rewrite (@den_circ c gates R' qs) by auto. apply IH; auto; clear IH.
      + apply op_len_shape in Lo as [Es _]. apply (circ_known G Es T Rg).
      + intros k g Ig. apply op_len_shape in Lo as [Es _]. destruct (circ_known G Es T Rg) as (NQ & Lsh & Fit & Al & Esh & Ip & _).
        apply Ip in Ig as Ic. destruct (G k g Ic) as [Ng Lg]. split; [eapply Wg; eauto|]. split; [eapply ex_circ; eauto|]. split; auto. split; auto.
        rewrite Forall_map, Forall_forall in Fit. destruct (Fit _ Ig) as [_ Inc]. exact Inc.
    - intros R' qs _ _ _ _ _ psi a D Ba. reflexivity.
    - intros R' qs k g gates l ls _ IH1 _ IH2 NR Nq L I H psi a D Ba.
      destruct (H k g) as (Wg & Xg & Ng & Lg & Ig); [simpl; auto|].
      assert (Nm : NoDup (map (wire_to R' qs) (g_qubits g))).
      { pose proof (wire_to_inj NR Nq L) as Inj. apply (@NoDup_rename (wire_to R' qs) (g_qubits g)); auto. }
      assert (Im : incl (map (wire_to R' qs) (g_qubits g)) qs).
      { intros q Iq. rewrite <- (@wire_to_map R' qs NR L). apply (incl_map (wire_to R' qs) Ig). auto. }
      rewrite map_app, run_app. cbn [map]. unfold moved at 1. cbn [snd].
      change (run (B Q) (den (g_op g, map (wire_to R' qs) (g_qubits g)) :: map den (map (moved R' qs) gates)) psi a)
        with (run (B Q) (map den (map (moved R' qs) gates)) (evolve (B Q) (den (g_op g, map (wire_to R' qs) (g_qubits g))) psi) a).
      rewrite <- IH2; auto.
      + apply CircOrder.run_ext; auto. intros x Bx. apply IH1; auto.
        * rewrite map_length; auto.
        * intros q Iq; apply I; auto.
      + intros k' g' I'. apply (H k' g'); simpl; auto.
      + apply evolve_depends. apply den_on. intros q Iq. apply I, Im, Iq.
  Qed.
End Generic.

Section Pure.
  Variable S : scalar.
  Notation op := (op S).
  Lemma evolve_amp Q qs ws (A A' : list nat -> list nat -> S) psi a : incl qs Q -> (forall q, In q Q -> a q < 2)%nat ->
    (forall o i, bits (length (act_outs (Act qs ws A))) o -> A o i = A' o i) ->
    evolve Q (Act qs ws A) psi a = evolve Q (Act qs ws A') psi a.
  Proof.
    intros I Ba H. unfold evolve. apply esum_ext_all. intros b. f_equal. unfold matrix. cbn [amp]. f_equal.
    change (act_outs (Act qs ws A')) with (act_outs (Act qs ws A)). change (act_ins (Act qs ws A')) with (act_ins (Act qs ws A)).
    apply H. split; [apply map_length|]. apply Forall_forall. intros x Ix. apply in_map_iff in Ix as (q & <- & Iq). apply Ba, I.
    unfold act_outs in Iq. apply filter_In in Iq. apply Iq.
  Qed.

  Lemma pure_den_circ (c gates : circ op) Q R' qs psi a : NoDup Q -> op_wf (OCirc c) -> time_ordered c gates -> register c R' ->
    op_len (OCirc c) = Ok (length qs) -> NoDup qs -> incl qs Q -> depends_on (S := S) Q psi -> (forall q, In q Q -> a q < 2)%nat ->
    evolve Q (one_act (OCirc c, qs)) psi a = run Q (map (@one_act S) (map (moved R' qs) gates)) psi a.
  Proof.
    intros NQ W T Rg L Nq I D Ba. inversion W as [| | | | | |? N Wg G|]; subst. apply op_len_shape in L as [Es L].
    destruct (circ_known G Es T Rg) as (NR & Lsh & Fit & Al & Esh & Ip & Co & Am). assert (Lq : length qs = length R') by congruence.
    rewrite map_map. erewrite map_ext by (intros p; apply moved_act). rewrite <- map_map.
    rewrite <- (@place_circuit S (wire_to R' qs) R' Q (map (@gate_act S) gates) (fun q => truncate (history (map (@gate_act S) gates) q))); auto.
    2:{ apply wire_to_inj; auto. }
    2:{ rewrite wire_to_map; auto. }
    2:{ intros q _. apply alike_truncate, Al. }
    rewrite wire_to_map by auto. unfold one_act. cbn [fst snd].
    replace (map (fun q => truncate (history (map (@gate_act S) gates) q)) R') with (map role_word (shape_or (OCirc c))).
    2:{ rewrite Esh, map_map. reflexivity. }
    apply evolve_amp; auto. intros o i Bo. apply Am. rewrite act_outs_count in Bo; auto. 
  Qed.
End Pure.
