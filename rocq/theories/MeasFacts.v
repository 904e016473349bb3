(** * The circuits that measuring a qubit builds *)
From Coq Require Import Sorting.Permutation Sorting.Sorted.
From Verif Require Import Base Scalar NetSpec Sums NetAlg ModelArray ModelTN TNSpec ModelVal ModelOps OpsSpec ModelContract NameOrder CircSpec CircSum CircOrder ModelCircuit CircSem CircShape
  CircCtrl CircMain CircBuild CircUse DensSpec CircDens CircDensNet CircDensOp CircPure ChanCirc ChanTrace CircFlat FlatSpec CircNest CircNest2 CircNest3 ModelNoise NoisySpec NoiseAdd NoiseAdd2 NoiseAdd4
  MatSpec MeasureSpec MeasEvolve MeasRun MeasExtend.
Set Implicit Arguments.

Lemma filter_names (N : nat) (sh : list role) (p : role -> bool) (f : name -> bool) : map p sh = map f (range_names N) ->
  map (fun i => NI (Z.of_nat i)) (positions p sh) = filter f (range_names N) /\ count p sh = length (filter f (range_names N)).
Proof.
  unfold positions, range_names, count. intros E. assert (L : length sh = N) by (apply (f_equal (@length _)) in E; rewrite !map_length, seq_length in E; auto).
  rewrite <- L in *. clear L. revert E. generalize 0%nat as k. induction sh as [|r sh IH]; intros k E; auto.
  cbn [length seq map] in E. injection E as E1 E2. destruct (IH _ E2) as [A B]. cbn [length seq map combine filter snd]. rewrite <- E1.
  destruct (p r); cbn [map fst length]; rewrite ?A, ?B; auto.
Qed.

Section Facts.
  Variable S : scalar.
  Notation op := (op S).
  Local Open Scope K_scope.
  Add Ring K_ring_mf : (kring S).
  Context (c : circ op) (sh : list role) (N : nat).
  Hypothesis W : op_wf (OCirc c).
  Hypothesis Ns : no_super (OCirc c).
  Hypothesis Es : op_shape (OCirc c) = Ok sh.
  Hypothesis Lf : late_names_free c.
  Hypothesis Rg : register c (range_names N).
  Hypothesis Hin : count role_in sh = 0%nat.
  Notation Q := (range_names N).
  Notation gs := (map (@gate_act S) (in_order c)).
  Definition live (q : name) : bool := ends_out (history gs q).
  Definition outs : list name := filter live Q.

  Lemma known : NoDup Q /\ (forall q, alternating (history gs q)) /\ map role_out sh = map live Q /\
    map role_in sh = map (fun q => starts_in (history gs q)) Q /\ Forall (act_fits Q) gs /\ gates_ok c /\ time_ordered c (in_order c).
  Proof.
    inversion W as [| | | | | |? Nk Wg G|]; subst. assert (G' : gates_ok c) by exact G.
    assert (T : time_ordered c (in_order c)) by (split; [apply in_order_perm|apply in_order_sorted]).
    destruct (circ_known G' Es T Rg) as (NR & Lsh & Fit & Al & Esh & Ip & Co & _). split; auto. split; auto. split; [|split; auto].
    - rewrite Esh, map_map. apply map_ext. intros q. cbn [role_out]. apply truncate_shape; auto.
    - rewrite Esh, map_map. apply map_ext. intros q. cbn [role_in]. apply truncate_shape; auto.
  Qed.
  Lemma no_start q : In q Q -> starts_in (history gs q) = false.
  Proof.
    intros Iq. destruct known as (_ & _ & _ & E & _). destruct (filter_names _ _ _ _ E) as [_ C].
    rewrite Hin in C. symmetry in C. apply length_zero_iff_nil in C. destruct (starts_in (history gs q)) eqn:Eq; auto. exfalso.
    assert (I : In q []) by (rewrite <- C; apply filter_In; auto). destruct I.
  Qed.
  Lemma outs_names : map (fun i => NI (Z.of_nat i)) (positions role_out sh) = outs /\ count role_out sh = length outs.
  Proof. destruct known as (_ & _ & E & _). apply filter_names; auto. Qed.
  Lemma outs_NoDup : NoDup outs. Proof. apply NoDup_filter, known. Qed.
  Lemma outs_In q : In q outs <-> In q Q /\ live q = true. Proof. apply filter_In. Qed.

  Definition psi : env (A := name) -> S := run (both Q) (map (@dbl S) (map (@xc S) (in_order c))) (basis (both Q) env0).
  Lemma fits_c : Forall (@fits S) (map (@xc S) (in_order c)) /\ forall g, In g (map (@dbl S) (map (@xc S) (in_order c))) -> incl (on g) (both Q).
  Proof.
    destruct known as (_ & _ & _ & _ & Fit & G & T). split; [apply (dens_known G Es T Rg)|].
    intros g Ig. apply in_map_iff in Ig as (x & <- & Ix). apply in_map_iff in Ix as ([k g0] & <- & I0). cbn [dbl on c_on xc snd].
    apply both_incl. intros q Iq. apply (proj1 Rg). exists k, g0. split; auto. eapply Permutation_in; [apply Permutation_sym, in_order_perm|exact I0].
  Qed.
  Lemma psi_depends : depends_on (both Q) psi.
  Proof. apply run_depends; [apply fits_c|apply CircPure.basis_depends]. Qed.
  Lemma place_none l : place l [] = env0. Proof. destruct l; auto. Qed.
  Lemma place_bitwise l x n : bits n x -> length l = n -> bitwise Q (place l x).
  Proof. intros B L q _. apply bits_place. rewrite L. auto. Qed.

  Lemma dens_psi x x' : bits (length outs) x -> bits (length outs) x' ->
    op_dens (OCirc c) x [] x' [] = psi (two (place outs x) (place outs x')).
  Proof.
    intros B B'. destruct known as (NQ & Al & Eo & Ei & Fit & G & T). destruct outs_names as [_ Co].
    rewrite (dens_order G Es T Rg) by (rewrite Co; auto). unfold channel, amplitude. rewrite dbl_wires_out by apply fits_c.
    change ([] ++ []) with (@nil nat). rewrite place_none. fold psi.
    replace (wires_out Q (map (@skel S) (map (@xc S) (in_order c)))) with outs.
    - apply psi_depends. intros p Ip. destruct B, B'. eapply place_both; eauto using outs_NoDup.
    - apply filter_ext. intros q. unfold live. rewrite xc_words. auto.
  Qed.

  (** appended operations *)
  Definition live' (l : circ op) (q : name) : bool := ends_out (history gs q ++ history (map (@gate_act S) l) q).
  Lemma ext_psi l : appendable c N l -> (forall q, history (map (@gate_act S) l) q <> [] -> live q = true) ->
    c_extend l c = Ok (extended c l) /\ op_wf (OCirc (extended c l)) /\ no_super (OCirc (extended c l)) /\ register (extended c l) Q /\
    exists sh', op_shape (OCirc (extended c l)) = Ok sh' /\ count role_in sh' = 0%nat /\ count role_out sh' = length (filter (live' l) Q) /\
      map (fun i => NI (Z.of_nat i)) (positions role_out sh') = filter (live' l) Q /\
      forall x x', bits (length (filter (live' l) Q)) x -> bits (length (filter (live' l) Q)) x' ->
        op_dens (OCirc (extended c l)) x [] x' [] = run (both Q) (map (@dbl S) (map (@xc S) l)) psi (two (place (filter (live' l) Q) x) (place (filter (live' l) Q) x')).
  Proof.
    intros A Hl. destruct (extend_facts W Ns Es Lf Rg A) as (E & Wx & Nx & Rx & sh' & Es' & L' & Esh & Ei & Eo & V).
    split; auto. split; auto. split; auto. split; auto. exists sh'. split; auto.
    assert (Eo' : map role_out sh' = map (live' l) Q) by (rewrite Eo; apply map_ext; intros q; unfold live'; rewrite history_app; auto).
    assert (Hi : forall q, In q Q -> starts_in (history (gs ++ map (@gate_act S) l) q) = false).
    { intros q Iq. rewrite history_app. pose proof (no_start q Iq) as Z. destruct (history gs q) eqn:Eh; [|exact Z].
      destruct (history (map (@gate_act S) l) q) eqn:El; auto. exfalso. assert (X : live q = true) by (apply Hl; congruence). unfold live in X. rewrite Eh in X. discriminate. }
    destruct (filter_names _ _ _ _ Eo') as [Pn Co]. destruct (filter_names _ _ _ _ Ei) as [_ Ci].
    split. { rewrite Ci. clear -Hi. induction (range_names N) as [|q r IH]; auto. cbn [filter]. rewrite Hi by (simpl; auto). apply IH. intros p Ip. apply Hi. simpl; auto. }
    split; auto. split; auto. intros x x' B B'. rewrite V by (rewrite Co; auto). unfold channel, amplitude.
    destruct known as (NQ & Al & _ & _ & Fit & G & T). destruct fits_c as [Fc Ic].
    assert (Fl : Forall (@fits S) (map (@xc S) l)).
    { apply Forall_map, Forall_forall. intros [k g] I. destruct A as [A _]. destruct (A k g I) as (_ & _ & _ & Lo & _). unfold fits. cbn. rewrite map_length.
      unfold op_len in Lo. destruct (op_shape (g_op g)) eqn:Eg; [|discriminate]. cbn in Lo. injection Lo as Lo. rewrite (shape_or_eq _ Eg). auto. }
    rewrite dbl_wires_out by (apply Forall_app; auto). change ([] ++ []) with (@nil nat). rewrite place_none, map_app, run_app. fold psi.
    replace (wires_out Q (map (@skel S) (map (@xc S) (in_order c) ++ map (@xc S) l))) with (filter (live' l) Q).
    - apply run_depends; [|apply psi_depends|].
      + intros g Ig. apply in_map_iff in Ig as (y & <- & Iy). apply in_map_iff in Iy as ([k g0] & <- & I0). cbn [dbl on c_on xc snd].
        apply both_incl. destruct A as [A _]. apply (A k g0 I0).
      + intros p Ip. destruct B, B'. eapply place_both; eauto using NoDup_filter.
    - apply filter_ext. intros q. unfold live'. rewrite map_app, history_app, !xc_words. auto.
  Qed.
End Facts.
