(** * add_noise: the trace, and noise that does nothing *)
From Coq Require Import Sorting.Permutation Sorting.Sorted.
From Verif Require Import Base Scalar NetSpec Sums NetAlg ModelArray ModelTN TNInv TNOps TNSpec TNValue TNExact TNEdit
  TNEdit2 ModelVal ModelOps OpsSpec OpsProofs OpsValue ModelContract ContractExec NameOrder CircSpec CircSum CircOrder ModelCircuit CircSem CircShape
  CircWire CircStep CircNet CircCtrl CircWhen CircOp CircMain CircBuild CircUse DensSpec CircDens CircDensNet CircDensOp CircPure ChanCirc CircFlat FlatSpec CircNest CircNest2 CircNest3
  ModelNoise NoisySpec NoiseAdd NoiseAdd2 NoiseAdd3 NoiseAdd4 MatSpec NoiseSpec ChanTrace.
Set Implicit Arguments.

Section Add.
  Variable S : scalar.
  Notation op := (op S).
  Local Open Scope K_scope.
  Add Ring K_ring_na5 : (kring S).
  Context (nz : op).
  Hypothesis Wz : op_wf nz.
  Hypothesis Ez : op_shape nz = Ok [RW [LI; LO]].

  Lemma with_noise_alternating gates q : (forall k g, In (k, g) gates -> op_shape (g_op g) = Ok (shape_or (g_op g)) /\ NoDup (g_qubits g) /\
      length (g_qubits g) = length (shape_or (g_op g))) ->
    alternating (history (map (@gate_act S) gates) q) -> alternating (history (map (@skel S) (with_noise nz gates)) q).
  Proof.
    induction gates as [|[k g] gates IH]; intros H Al; [exact I|]. destruct (H k g) as (Eg & N & L); [simpl; auto|].
    assert (H1 : alike (history (map (@gate_act S) [(k, g)]) q) (history (map (@skel S) (with_noise nz [(k, g)])) q)).
    { apply with_noise_alike. intros k' g' [E|[]]. injection E as <- <-. auto. }
    assert (H2 : alike (history (map (@gate_act S) gates) q) (history (map (@skel S) (with_noise nz gates)) q)).
    { apply with_noise_alike. intros k' g' I'; apply (H k' g'); simpl; auto. }
    rewrite with_noise_cons, map_app, history_app. change ((k, g) :: gates) with ([(k, g)] ++ gates) in Al. rewrite map_app, history_app in Al.
    eapply alike_join; [exact H1|exact H2| | |exact Al].
    2:{ apply IH; [intros k' g' I'; apply (H k' g'); simpl; auto|]. eapply alternating_app_r; eauto. }
    apply alternating_app_l in Al. cbn [map] in Al. rewrite history_one in Al.
    unfold with_noise. cbn [flat_map snd]. rewrite app_nil_r. cbn [map]. rewrite history_cons.
    set (h := history _ q).
    assert (Eh : h = if mem q (outputs (g_op g) (g_qubits g)) then [LI; LO] else []).
    { unfold h. pose proof (outputs_NoDup (g_op g) N L) as No. rewrite map_map. clear h. induction No as [|x l Nx No IHl]; auto. cbn [map]. rewrite history_cons, IHl.
      assert (E : word_at (skel (CAct [x] [[LI; LO]] (op_dens nz))) q = if eqb q x then [LI; LO] else []).
      { unfold word_at. cbn. destruct (eqb q x); auto. }
      rewrite E. cbn [mem existsb]. destruct (eqb_spec q x) as [->|_]; cbn [orb app]; auto. rewrite (proj2 (mem_false x l) Nx). auto. }
    rewrite Eh. destruct g as [t qs o]. cbn [g_op g_qubits] in *.
    change (word_at (gate_act (k, Gate t qs o)) q) with (word_at (Act qs (map role_word (shape_or o)) (fun _ _ => k0 (s := S))) q) in Al.
    change (word_at (skel (CAct qs (map role_word (shape_or o)) (op_dens o))) q) with (word_at (Act qs (map role_word (shape_or o)) (fun _ _ => k0 (s := S))) q).
    destruct (mem q (outputs o qs)) eqn:M; [|rewrite app_nil_r; auto]. apply mem_In in M. apply (outputs_In o q N L) in M as [_ M].
    apply alternating_join. split; auto. split; [cbn; split; auto; discriminate|]. right. right. exact M.
  Qed.

  Section Circuit.
    Context (c : circ op) (sh : list role).
    Hypothesis W : op_wf (OCirc c).
    Hypothesis Ns : no_super (OCirc c).
    Hypothesis Nsz : no_super nz.
    Hypothesis Es : op_shape (OCirc c) = Ok sh.
    Hypothesis Nu : forall k g, In (k, g) c -> numbered (g_op g).

    Lemma hush_no_super : no_super (OCirc (map (hush nz) c)).
    Proof.
      inversion Ns as [| | | | | |? NsI]; subst. constructor. intros k g I. apply in_map_iff in I as ([k' g'] & E & I). inversion E; subst. cbn [snd g_op].
      destruct (gate_good W Es Nu _ _ I) as (G & _). destruct (noisy_op_eq Wz Ez G) as [t Et]. unfold noisy. rewrite Et. constructor.
      intros k2 g2 I2. apply stacked_In in I2 as (k3 & g3 & I3 & _ & -> & _). unfold noisy_list in I3. apply in_app_iff in I3 as [I3|I3].
      - specialize (NsI _ _ I). destruct (g_op g') as [| | | | | |d|]; cbn [inner] in I3; try (destruct I3 as [I3|[]]; injection I3 as <- <-; exact NsI).
        inversion NsI as [| | | | | |? Nd]; subst. eapply Nd. eapply Permutation_in; [apply Permutation_sym, in_order_perm|exact I3].
      - apply in_map_iff in I3 as (q & E3 & _). injection E3 as <- <-. exact Nsz.
    Qed.

    Lemma noise_preserves : (forall k g, In (k, g) c -> preserves_trace (g_op g)) -> preserves_trace nz -> preserves_trace (OCirc (map (hush nz) c)).
    Proof.
      intros H Hz. inversion W as [| | | | | |? N Wg G|]; subst. assert (G' : gates_ok c) by exact G. inversion Ns as [| | | | | |? NsI]; subst.
      assert (T : time_ordered c (in_order c)) by (split; [apply in_order_perm|apply in_order_sorted]).
      destruct (circ_facts G' Es) as (Q & AQ & _). pose proof (all_qubits_register _ AQ) as Rg.
      destruct (add_noise_dens Wz Ez W Es Nu T Rg) as (sh' & Es' & Ei & Eo & Vd).
      destruct (hush_wf Wz Ez W Es Nu) as [Wd _]. destruct (dens_ok Wd hush_no_super Es') as (v & Ev & _ & Sv & Vv).
      assert (Cnt : forall p (s s' : list role), map p s' = map p s -> count p s' = count p s).
      { intros p. unfold count. induction s as [|r s IH]; intros [|r' s'] E; try discriminate; auto. cbn [map] in E. injection E as E1 E2. cbn [filter]. rewrite E1.
        destruct (p r); cbn [length]; [f_equal|]; auto. }
      pose proof (Cnt _ _ _ Ei) as Ci'. pose proof (Cnt _ _ _ Eo) as Co'.
      exists sh', v. split; auto. split; auto. rewrite Ci', Co' in *. apply unital_preserving. eapply unital_ext; [intros; symmetry; unfold entries_of; rewrite Vv by auto; apply Vd; auto|].
      destruct (circ_known G' Es T Rg) as (NR & Lsh & Fit & Al & Esh & Ip & Co & _).
      assert (Hg : forall k g, In (k, g) (in_order c) -> op_shape (g_op g) = Ok (shape_or (g_op g)) /\ NoDup (g_qubits g) /\ length (g_qubits g) = length (shape_or (g_op g))).
      { intros k g I. destruct (gate_good W Es Nu _ _ (Ip _ I)) as ((_ & A0 & _) & A2 & A3). auto. }
      assert (An := fun q => with_noise_alike nz (in_order c) q Hg).
      assert (Co2 : count role_out sh = length (wires_out Q (map (@skel S) (with_noise nz (in_order c))))).
      { rewrite Co. f_equal. apply filter_ext. intros q. apply (An q). }
      assert (Ci2 : count role_in sh = length (wires_in Q (map (@skel S) (with_noise nz (in_order c))))).
      { destruct T as [P St]. destruct (any_order G' Es P St) as (Q2 & AQ2 & _ & _ & Ci & _). rewrite AQ in AQ2. injection AQ2 as <-.
        rewrite Ci. f_equal. apply filter_ext. intros q. apply (An q). }
      rewrite Co2, Ci2. apply channel_unital; auto; [|intros q; apply with_noise_alternating; auto].
      assert (U : forall (o : op) sh0, op_wf o -> no_super o -> op_shape o = Ok sh0 -> preserves_trace o -> unital (count role_out sh0) (count role_in sh0) (op_dens o)).
      { intros o sh0 Wo No Eo0 (s & u & Es0 & Eu & Tr). rewrite Eo0 in Es0. injection Es0 as <-. destruct (dens_ok Wo No Eo0) as (u' & Eu' & _ & _ & V').
        rewrite Eu in Eu'. injection Eu' as <-. apply preserving_unital in Tr. eapply unital_ext; [|exact Tr]. intros. apply V'; auto. }
      unfold with_noise. apply Forall_forall. intros g Ig. apply in_flat_map in Ig as ([k g0] & I0 & Ig). destruct (Hg k g0 I0) as (E0 & N0 & L0).
      assert (Iq : incl (g_qubits g0) Q) by (intros q Iq; apply (proj1 Rg); exists k, g0; auto).
      destruct Ig as [<-|Ig].
      - split; [unfold fits; cbn; rewrite map_length; auto|]. split; [exact N0|]. split; [exact Iq|].
        unfold skel. cbn [c_on c_words c_chan snd]. rewrite act_outs_count, act_ins_count by auto. apply U; auto; [eapply Wg; eauto|eapply NsI; eauto|eapply H; eauto].
      - apply in_map_iff in Ig as (q & <- & Io). apply (outputs_In (g_op g0) q N0 L0) in Io as [Io _].
        assert (N1 : NoDup [q]) by (repeat constructor; intros []).
        split; [reflexivity|]. split; [exact N1|]. split; [intros x [<-|[]]; auto|].
        unfold skel. cbn [c_on c_words c_chan]. pose proof (@act_outs_count S [q] [RW [LI; LO]] (fun _ _ => 0) N1 eq_refl) as A1.
        pose proof (@act_ins_count S [q] [RW [LI; LO]] (fun _ _ => 0) N1 eq_refl) as A2. match goal with |- unital ?n ?m _ => replace n with (count role_out [RW [LI; LO]]) by (symmetry; exact A1); replace m with (count role_in [RW [LI; LO]]) by (symmetry; exact A2) end. apply U; auto.
    Qed.

  End Circuit.

  (** noise that does nothing *)
  Hypothesis Id : forall a b a' b', (a < 2)%nat -> (b < 2)%nat -> (a' < 2)%nat -> (b' < 2)%nat -> op_dens nz [a] [b] [a'] [b'] = kdelta (Nat.eqb a b && Nat.eqb a' b').
  Lemma nothing_evolve Q q psi a : NoDup Q -> In q Q -> depends_on (S := S) (both Q) psi -> (forall x, In x (both Q) -> a x < 2)%nat ->
    evolve (both Q) (dbl (CAct [q] [[LI; LO]] (op_dens nz))) psi a = psi a.
  Proof.
    intros NQ Iq D Ba. assert (NB := both_NoDup NQ). assert (N1 : NoDup [q]) by (repeat constructor; intros []).
    assert (N2 := both_NoDup N1). assert (I2 : incl (both [q]) (both Q)) by (apply both_incl; intros x [<-|[]]; auto).
    rewrite (@evolve_on S (both Q) (both [q]) (dbl (CAct [q] [[LI; LO]] (op_dens nz)))); auto; [|apply incl_refl].
    assert (Ik : In (ket q) (both Q)) by (apply both_ket; auto). assert (Ib : In (bra q) (both Q)) by (apply both_bra; auto).
    pose proof (Ba _ Ik) as Bk. pose proof (Ba _ Ib) as Bb.
    transitivity (esum (S := S) (qdom (both [q])) (fun b => kdelta (forallb (fun x => Nat.eqb (a x) (b x)) (both [q])) * psi b) a).
    - apply esum_ext; [rewrite keys_qdom; auto|]. intros b [Rb _]. f_equal.
      assert (Bq : forall x, In x (both [q]) -> (b x < 2)%nat) by (intros x Ix; apply bits01, (Rb x); unfold qdom; apply in_map_iff; eauto).
      assert (Fq : fits (CAct [q] [[LI; LO]] (op_dens nz))) by reflexivity.
      unfold matrix. rewrite dbl_outs, dbl_ins by auto.
      assert (Wq : word_at (skel (CAct [q] [[LI; LO]] (op_dens nz))) q = [LI; LO]) by (unfold word_at; cbn; rewrite eqb_refl; auto).
      assert (Eo : act_outs (skel (CAct [q] [[LI; LO]] (op_dens nz))) = [q]) by (unfold act_outs; cbn [skel on c_on filter]; rewrite Wq; auto).
      assert (Ei : act_ins (skel (CAct [q] [[LI; LO]] (op_dens nz))) = [q]) by (unfold act_ins; cbn [skel on c_on filter]; rewrite Wq; auto).
      rewrite Eo, Ei. cbn [both map app forallb]. rewrite word_ket, word_bra, Wq by auto. cbn [wire_ok starts_in ends_out last orb andb].
      unfold dbl. cbn [amp]. rewrite Eo, Ei. cbn [length firstn skipn c_chan]. rewrite Id; auto; [|apply Bq; cbn; auto|apply Bq; cbn; auto].
      rewrite andb_true_r. cbn [kdelta]. ring.
    - cbn [both map app qdom esum sumf].
      assert (Ne : bra q <> ket q) by discriminate. assert (Ne' : ket q <> bra q) by discriminate.
      assert (Ex : forall u v, a (ket q) = u -> a (bra q) = v -> psi (upd (upd a (ket q) u) (bra q) v) = psi a).
      { intros u v Eu Ev. apply D. intros x Ix. unfold upd. destruct (eqb_spec x (bra q)) as [->|_]; auto. destruct (eqb_spec x (ket q)) as [->|_]; auto. }
      assert (Hk : forall u v, upd (upd a (ket q) u) (bra q) v (ket q) = u).
      { intros u v. unfold upd. destruct (eqb_spec (ket q) (bra q)) as [E|_]; [discriminate E|]. rewrite eqb_refl. auto. }
      assert (Hb : forall u v, upd (upd a (ket q) u) (bra q) v (bra q) = v) by (intros u v; unfold upd; rewrite eqb_refl; auto).
      destruct (a (ket q)) as [|[|]] eqn:Ek; [| |lia]; destruct (a (bra q)) as [|[|]] eqn:Eb; try lia;
        cbn [forallb]; rewrite !Ek, !Eb; rewrite !Hk, !Hb; cbn [Nat.eqb andb kdelta]; rewrite (Ex _ _ eq_refl eq_refl); ring.
  Qed.

  Lemma nothing_runs gates Q : NoDup Q -> (forall k g, In (k, g) gates -> NoDup (g_qubits g) /\
      length (g_qubits g) = length (shape_or (g_op g)) /\ incl (g_qubits g) Q) ->
    forall psi a, depends_on (S := S) (both Q) psi -> (forall q, In q (both Q) -> a q < 2)%nat ->
    run (both Q) (map (@dbl S) (with_noise nz gates)) psi a = run (both Q) (map (@dbl S) (map (@xc S) gates)) psi a.
  Proof.
    intros NQ. induction gates as [|[k g] gates IH]; intros H psi a D Ba; auto. destruct (H k g) as (N & L & I); [simpl; auto|].
    rewrite with_noise_cons, map_app, run_app. cbn [map].
    match goal with |- _ = run ?Q (?x :: ?l) psi a => change (run Q (x :: l) psi a) with (run Q l (evolve Q x psi) a) end.
    assert (De : depends_on (S := S) (both Q) (evolve (both Q) (dbl (xc (k, g))) psi)) by (apply evolve_depends; cbn; apply both_incl; auto).
    rewrite <- IH; auto; [|intros k' g' I'; apply (H k' g'); simpl; auto].
    apply CircOrder.run_ext; auto; [apply both_NoDup; auto|]. intros e Be. unfold with_noise. cbn [flat_map snd]. rewrite app_nil_r. cbn [map].
    match goal with |- run ?Q (?x :: ?l) psi e = _ => change (run Q (x :: l) psi e) with (run Q l (evolve Q x psi) e) end.
    change (dbl (CAct (g_qubits g) (map role_word (shape_or (g_op g))) (op_dens (g_op g)))) with (dbl (xc (k, g))).
    assert (Io : incl (outputs (g_op g) (g_qubits g)) Q).
    { intros q Iq. apply (outputs_In (g_op g) q N L) in Iq as [Iq _]. auto. }
    revert e Be De. generalize (evolve (both Q) (dbl (xc (k, g))) psi) as phi. induction (outputs (g_op g) (g_qubits g)) as [|q l IHl]; intros phi e Be De; auto.
    cbn [map]. match goal with |- run ?Q (?x :: ?l) phi e = _ => change (run Q (x :: l) phi e) with (run Q l (evolve Q x phi) e) end.
    rewrite IHl; auto.
    - apply nothing_evolve; auto. apply Io; simpl; auto.
    - intros x Ix. apply Io; simpl; auto.
    - apply evolve_depends. cbn [dbl on c_on]. apply both_incl. intros x [<-|[]]. apply Io; simpl; auto.
  Qed.

  Theorem nothing_dens (c : circ op) sh : op_wf (OCirc c) -> op_shape (OCirc c) = Ok sh -> (forall k g, In (k, g) c -> numbered (g_op g)) ->
    forall x y x' y', bits (count role_out sh) x -> bits (count role_out sh) x' -> op_dens (OCirc (map (hush nz) c)) x y x' y' = op_dens (OCirc c) x y x' y'.
  Proof.
    intros W Es Nu x y x' y' Bx Bx'. inversion W as [| | | | | |? N Wg G|]; subst. assert (G' : gates_ok c) by exact G.
    assert (T : time_ordered c (in_order c)) by (split; [apply in_order_perm|apply in_order_sorted]).
    destruct (circ_facts G' Es) as (Q & AQ & _). pose proof (all_qubits_register _ AQ) as Rg.
    destruct (add_noise_dens Wz Ez W Es Nu T Rg) as (sh' & Es' & Ei & Eo & Vd). rewrite Vd by auto.
    rewrite (dens_order G' Es T Rg) by auto. destruct (circ_known G' Es T Rg) as (NR & Lsh & Fit & Al & Esh & Ip & Co & _).
    assert (Hg : forall k g, In (k, g) (in_order c) -> op_shape (g_op g) = Ok (shape_or (g_op g)) /\ NoDup (g_qubits g) /\ length (g_qubits g) = length (shape_or (g_op g))).
    { intros k g I. destruct (gate_good W Es Nu _ _ (Ip _ I)) as ((_ & A0 & _) & A2 & A3). auto. }
    assert (An := fun q => with_noise_alike nz (in_order c) q Hg).
    assert (Fn : Forall (@fits S) (with_noise nz (in_order c))) by (apply with_noise_fits; intros k g I; apply (Hg k g I)).
    destruct (dens_known G' Es T Rg) as [Ft _]. unfold channel, amplitude.
    assert (Eo' : wires_out (both Q) (map (@dbl S) (map (@xc S) (in_order c))) = wires_out (both Q) (map (@dbl S) (with_noise nz (in_order c)))).
    { rewrite !dbl_wires_out by auto. f_equal. apply filter_ext. intros q. rewrite xc_words. apply (An q). }
    assert (Ei' : wires_in (both Q) (map (@dbl S) (map (@xc S) (in_order c))) = wires_in (both Q) (map (@dbl S) (with_noise nz (in_order c)))).
    { rewrite !dbl_wires_in by auto. f_equal. apply filter_ext. intros q. rewrite xc_words. apply (An q). }
    rewrite Eo', Ei'. apply nothing_runs; auto.
    - intros k g I. destruct (Hg k g I) as (_ & A2 & A3). split; auto. split; auto. intros q Iq. apply (proj1 Rg). exists k, g. auto.
    - apply basis_depends.
    - intros q _. apply bits_place. rewrite dbl_wires_out by auto. unfold both. rewrite app_length, !map_length.
      replace (length (wires_out Q (map (@skel S) (with_noise nz (in_order c))))) with (count role_out sh); [apply bits_app; auto|].
      rewrite Co. f_equal. apply filter_ext. intros z. apply (An z).
  Qed.
End Add.
