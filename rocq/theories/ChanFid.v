(** The overlap of a prepared state, possibly with noise, with a pure one: [b | a.adjoint()]. *)
From Coq Require Import Sorting.Permutation Sorting.Sorted.
From Verif Require Import Base Scalar NetSpec Sums NetAlg ModelArray ModelTN TNSpec ModelVal ModelOps OpsSpec ModelContract NameOrder CircSpec CircSum CircOrder ModelCircuit CircSem CircShape
  OpsProofs OpsValue CircCtrl CircMain CircBuild CircUse CircAdj DensSpec CircDens CircDensNet CircDensOp CircPure ChanCirc ChanTrace CircFlat FlatSpec CircNest CircNest2 CircNest3 ModelNoise NoisySpec NoiseAdd NoiseAdd4 MatSpec ChanOr.
Set Implicit Arguments.

Section Fid.
  Variable S : scalar.
  Notation op := (op S).
  Local Open Scope K_scope.
  Add Ring Kring_fid : (kring S).

  Lemma adj_gates_In M : forall (l acc r : circ op), adj_gates M l acc = Ok r -> forall k g, In (k, g) r ->
    In (k, g) acc \/ exists k0 t q a, In (k0, Gate t q a) l /\ adj a = Ok (g_op g) /\ k = NT [NI (M - t)%Z; NT q].
  Proof.
    induction l as [|[k0 [t q a]] l IH]; intros acc r E k g I; cbn [adj_gates] in E.
    - injection E as <-. auto.
    - destruct (adj a) as [b|] eqn:Ea; [|discriminate]. cbn [bind] in E.
      destruct (c_append b q (Some (M - t)%Z) None acc) as [acc'|] eqn:Ec; [|discriminate]. cbn [bind] in E.
      destruct (IH acc' r E k g I) as [J|(k1 & t1 & q1 & a1 & J & A & Ek)].
      + apply c_append_ok in Ec as (_ & _ & ->). apply CircBuild.set_In in J as [J|J]; auto.
        injection J as -> ->. right. exists k0, t, q, a. simpl. auto.
      + right. exists k1, t1, q1, a1. simpl. auto.
  Qed.
  Lemma adj_no_super (o : op) : no_super o -> forall o', adj o = Ok o' -> no_super o'.
  Proof.
    induction 1 as [sa sh d|sa sh d|b|b|sh d|cond c|c Ns IH]; intros o' E.
    - destruct sa; simpl in E; [injection E as <-; constructor|]. destruct (v_conj d); [|discriminate]. cbn [bind] in E.
      destruct (v_transpose _ _); [|discriminate]. cbn [bind] in E. unfold mk_pure in E.
      repeat match type of E with context [if ?x then _ else _] => destruct x | context [match ?x with _ => _ end] => destruct x end; try discriminate; injection E as <-; constructor.
    - destruct sa; simpl in E; [injection E as <-; constructor|]. destruct (v_conj d); [|discriminate]. cbn [bind] in E.
      destruct (v_transpose _ _); [|discriminate]. cbn [bind] in E. unfold mk_ctrl in E.
      repeat match type of E with context [if ?x then _ else _] => destruct x | context [match ?x with _ => _ end] => destruct x end; try discriminate; injection E as <-; constructor.
    - injection E as <-. constructor.
    - injection E as <-. constructor.
    - discriminate.
    - cbn [adj] in E. destruct (op_pure (OCirc c)) as [[]|]; try discriminate. cbn [bind] in E.
      match type of E with bind ?x _ = _ => destruct x; [|discriminate] end. cbn [bind] in E. destruct (op_shape _); [|discriminate]. injection E as <-. constructor.
    - change (adj (OCirc c)) with (do p <- op_pure (OCirc c); if p then do r <- adj_gates (max_time c) c []; Ok (OCirc r) else Err ValueError) in E.
      destruct (op_pure (OCirc c)) as [[]|]; try discriminate. cbn [bind] in E.
      destruct (adj_gates (max_time c) c []) as [r|] eqn:Er; [|discriminate]. injection E as <-. constructor. intros k g I.
      destruct (adj_gates_In _ _ _ Er k g I) as [[]|(k0 & t & q & a & J & A & _)]. apply (IH k0 (Gate t q a) J). exact A.
  Qed.
  Lemma alternating_join w : forall v, alternating w -> alternating v -> ends_out w = true -> starts_in v = true -> alternating (w ++ v).
  Proof.
    induction w as [|a w IH]; intros v Aw Av E1 E2; [exact Av|]. destruct w as [|b w].
    - destruct a; [discriminate|]. destruct v as [|[] v]; try discriminate. split; [discriminate|exact Av].
    - destruct Aw as [N Aw]. split; [exact N|]. exact (IH v Aw Av E1 E2).
  Qed.
  Lemma hist_used (c : circ op) q : history (map (@gate_act S) (in_order c)) q <> [] -> used c q.
  Proof.
    intros Z. assert (H : exists p, In p (in_order c) /\ In q (g_qubits (snd p))).
    { revert Z. generalize (in_order c) as l. unfold history. induction l as [|p l IH]; simpl; [congruence|]. intros Z.
      destruct (word_at (gate_act p) q) eqn:Ew.
      - destruct (IH Z) as (p' & I & J). eauto.
      - exists p. split; auto. assert (J : In q (on (gate_act p))) by (apply word_at_on; congruence). exact J. }
    destruct H as ([k g] & I & J). exists k, g. split; auto. eapply Permutation_in; [apply Permutation_sym, in_order_perm|exact I].
  Qed.

  (** every qubit begins inside the circuit and ends as an output *)
  Definition prepared (sh : list role) : Prop := Forall (fun r => role_in r = false /\ role_out r = true) sh.
  Lemma prepared_counts sh : prepared sh -> count role_in sh = 0%nat /\ count role_out sh = length sh.
  Proof.
    induction 1 as [|r sh [H1 H2] F [IH1 IH2]]; [auto|]. unfold count in *. cbn [filter]. rewrite H1, H2. cbn [length]. auto.
  Qed.

  Theorem overlap (b a : circ op) sb sa Q : op_wf (OCirc b) -> no_super (OCirc b) -> op_shape (OCirc b) = Ok sb -> prepared sb -> late_names_free b ->
    op_wf (OCirc a) -> no_super (OCirc a) -> reversible (OCirc a) -> op_pure (OCirc a) = Ok true -> op_shape (OCirc a) = Ok sa -> prepared sa ->
    register b Q -> register a Q ->
    exists a' r, adj (OCirc a) = Ok (OCirc a') /\ op_or (OCirc b) (OCirc a') = Ok (OCirc r) /\ r = b ++ stacked_after (1 + max_time b) (in_order a') /\
      op_wf (OCirc r) /\ no_super (OCirc r) /\
      exists sh, op_shape (OCirc r) = Ok sh /\ count role_out sh = 0%nat /\ count role_in sh = 0%nat /\
        op_dens (OCirc r) [] [] [] [] =
        sumf (fun m => sumf (fun m' => kconj (op_amp (OCirc a) m []) * op_dens (OCirc b) m [] m' [] * op_amp (OCirc a) m' []) (indices (repeat 2%nat (length Q))))
             (indices (repeat 2%nat (length Q))).
  Proof.
    intros Wb Nb Eb Pb Lf Wa Na Ra Pa Ea Qa Rb Rga.
    destruct (adj_circ_form Wa Ra Pa) as (a' & Ad & Us). destruct (adj_ok Wa Ra Pa Ea) as (o' & Ad' & W' & R' & P' & E' & Am).
    rewrite Ad in Ad'. injection Ad' as <-. pose proof (adj_no_super Na Ad) as N'.
    assert (Rg' : register a' Q) by (destruct Rga as [R1 R2]; split; auto; intros q; rewrite R1; symmetry; apply Us).
    inversion Wb as [| | | | | |? Kb Wgb Gb0|]; subst. assert (Gb : gates_ok b) by exact Gb0. clear Gb0.
    inversion W' as [| | | | | |? Ka Wga Ga0|]; subst. assert (Ga : gates_ok a') by exact Ga0. clear Ga0.
    assert (Tb : time_ordered b (in_order b)) by (split; [apply in_order_perm|apply in_order_sorted]).
    assert (Ta : time_ordered a' (in_order a')) by (split; [apply in_order_perm|apply in_order_sorted]).
    destruct (circ_known Gb Eb Tb Rb) as (NQ & Lb & _ & Alb & Shb & _). destruct (circ_known Ga E' Ta Rg') as (_ & La & _ & Ala & Sha & _).
    set (gs := map (@gate_act S) (in_order b)) in *. set (hs := map (@gate_act S) (in_order a')) in *.
    assert (Hb : forall q, In q Q -> ends_out (history gs q) = true).
    { intros q I. unfold prepared in Pb. rewrite Shb, Forall_map, Forall_forall in Pb. destruct (Pb q I) as [_ X]. cbn [role_out] in X.
      rewrite <- X. symmetry. apply truncate_shape; auto. }
    assert (Ha : forall q, In q Q -> starts_in (history hs q) = true).
    { intros q I. assert (X : Forall (fun r => role_in r = true) (map flip_role sa)).
      { rewrite Forall_map. eapply Forall_impl; [|exact Qa]. intros r [_ X]. rewrite <- X. apply flip_role_in. }
      rewrite Sha, Forall_map, Forall_forall in X. specialize (X q I). cbn [role_in] in X. rewrite <- X. symmetry. apply truncate_shape; auto. }
    assert (Nil : forall q, ~ In q Q -> history gs q = [] /\ history hs q = []).
    { intros q N. split; [destruct (history gs q) eqn:E|destruct (history hs q) eqn:E]; auto; exfalso; apply N.
      - apply (proj1 Rb). apply hist_used. fold gs. congruence.
      - apply (proj1 Rg'). apply hist_used. fold hs. congruence. }
    assert (Dec : forall q, In q Q \/ ~ In q Q) by (intros q; destruct (mem_spec q Q); auto).
    assert (Used : forall q, acts_used (gs ++ hs) q -> In q Q).
    { intros q (g & I & J). apply in_app_iff in I as [I|I]; apply in_map_iff in I as ([k x] & <- & I).
      - apply (proj1 Rb). exists k, x. split; [|exact J]. eapply Permutation_in; [apply Permutation_sym, in_order_perm|exact I].
      - apply (proj1 Rg'). exists k, x. split; [|exact J]. eapply Permutation_in; [apply Permutation_sym, in_order_perm|exact I]. }
    destruct (@or_density S b a' sb (map flip_role sa) Wb W' Nb N' Eb E' Lf) as (Er & We & Ne & sh & Es & Co & Ci & _ & D).
    - intros q. fold gs. fold hs. rewrite history_app. destruct (Dec q) as [I|N]; [apply alternating_join; auto|]. destruct (Nil q N) as [-> ->]. exact I.
    - intros q. fold gs. fold hs. destruct (Dec q) as [I|N]; [rewrite Hb, Ha; auto|]. destruct (Nil q N) as [-> ->]. reflexivity.
    - fold gs. fold hs. intros x y Ux Uy N. apply Used in Ux, Uy. destruct Rb as [_ SQ].
      clear -Ux Uy N SQ. induction SQ as [|z l S1 IH F]; [destruct Ux|]. rewrite Forall_forall in F.
      destruct Ux as [->|Ux], Uy as [->|Uy]; [congruence|exists true; auto| |auto].
      exists (negb true). apply name_lt_flip; auto.
    - destruct (prepared_counts Pb) as [Ib Ob]. destruct (prepared_counts Qa) as [Ia Oa].
      assert (Fi : count role_in (map flip_role sa) = count role_out sa) by (apply count_flip, flip_role_in).
      assert (Fo : count role_out (map flip_role sa) = count role_in sa) by (apply count_flip, flip_role_out).
      rewrite map_length in La.
      exists a', (b ++ stacked_after (1 + max_time b) (in_order a')). do 5 (split; auto). exists sh. split; auto.
      rewrite Co, Ci, Fo, Ia, Ib. split; auto. split; auto. rewrite Fo, Ia, Ib in D.
      assert (B0 : bits 0 []) by (split; auto). rewrite (D [] [] [] []) by auto. rewrite Ob, Lb.
      apply sumf_ext. intros m Im. apply sumf_ext. intros m' Im'. apply in_bits in Im, Im'.
      assert (Bm : bits (count role_out sa) m) by (rewrite Oa, La; auto). assert (Bm' : bits (count role_out sa) m') by (rewrite Oa, La; auto).
      rewrite (@dens_pure S (OCirc a') W' N' P' _ E') by (rewrite ?Fi, ?Fo, ?Ia; auto).
      rewrite !Am by (rewrite ?Ia; auto). rewrite kconj_conj. ring.
  Qed.
End Fid.
