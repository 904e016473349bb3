(** * add_noise: the density of the noisy circuit *)
From Coq Require Import Sorting.Permutation Sorting.Sorted.
From Verif Require Import Base Scalar NetSpec Sums NetAlg ModelArray ModelTN TNInv TNOps TNSpec TNValue TNExact TNEdit
  TNEdit2 ModelVal ModelOps OpsSpec OpsProofs OpsValue ModelContract ContractExec NameOrder CircSpec CircSum CircOrder ModelCircuit CircSem CircShape
  CircWire CircStep CircNet CircCtrl CircWhen CircOp CircMain CircBuild CircUse DensSpec CircDens CircDensNet CircDensOp CircPure ChanCirc CircFlat FlatSpec CircNest CircNest2 CircNest3
  ModelNoise NoisySpec NoiseAdd NoiseAdd2 NoiseAdd3.
Set Implicit Arguments.

Section Add.
  Variable S : scalar.
  Notation op := (op S).

  Lemma dens_order (c gates : circ op) sh R' : gates_ok c -> op_shape (OCirc c) = Ok sh -> time_ordered c gates -> register c R' ->
    forall x y x' y', bits (count role_out sh) x -> bits (count role_out sh) x' -> op_dens (OCirc c) x y x' y' = channel R' (map (@xc S) gates) x y x' y'.
  Proof.
    intros G Es T Rg x y x' y' Bx Bx'. destruct (circ_known G Es T Rg) as (NR & Lsh & Fit & Al & Esh & Ip & Co & Am).
    destruct (dens_known G Es T Rg) as [Ft Ao].
    assert (Ed : op_dens (OCirc c) = channel R' (map (@xc S) (in_order c))).
    { rewrite opdens_circ. unfold circ_chan. destruct (circ_facts G Es) as (Q' & AQ & _).
      assert (Q' = R') as -> by (apply (register_unique (c := c) (d := c)); auto; [tauto|apply all_qubits_register; auto]).
      rewrite all_qubits_map, AQ. f_equal. rewrite in_order_map. unfold map_circ. rewrite !map_map. apply map_ext. intros [k [t u b]]. reflexivity. }
    rewrite Ed. unfold channel. apply Ao. rewrite dbl_wires_out by auto. unfold both. rewrite app_length, !map_length.
    replace (length (wires_out R' (map (@skel S) (map (@xc S) gates)))) with (count role_out sh); [apply bits_app; auto|].
    rewrite Co. f_equal. apply filter_ext. intros q. rewrite xc_words; auto.
  Qed.

  Context (nz : op).
  Hypothesis Wz : op_wf nz.
  Hypothesis Ez : op_shape nz = Ok [RW [LI; LO]].

  Lemma outputs_map (f : name -> name) (o : op) qs : outputs o (map f qs) = map f (outputs o qs).
  Proof.
    unfold outputs. generalize (shape_or o) as sh. induction qs as [|q qs IH]; intros [|r sh]; auto. cbn [map combine filter snd].
    destruct (role_out r); cbn [map fst]; [f_equal|]; auto.
  Qed.

  Lemma inner_run (o : op) sh qs Q psi a : good o sh -> NoDup qs -> length qs = length sh -> NoDup Q -> incl qs Q ->
    depends_on (S := S) (both Q) psi -> (forall q, In q (both Q) -> a q < 2)%nat ->
    run (both Q) (map (@one_dact S) (map (moved (range_names (length sh)) qs) (inner o))) psi a = evolve (both Q) (one_dact (o, qs)) psi a.
  Proof.
    intros (W & Es & Nu & C) Nq L NQ I D Ba.
    assert (Non : (forall c, o <> OCirc c) ->
      run (both Q) (map (@one_dact S) (map (moved (range_names (length sh)) qs) [whole_gate o])) psi a = evolve (both Q) (one_dact (o, qs)) psi a).
    { intros _. assert (E : moved (range_names (length sh)) qs (whole_gate o) = (o, qs)).
      { unfold moved, whole_gate. cbn [snd g_op g_qubits]. rewrite (shape_or_eq _ Es), wire_to_map; auto; [apply range_NoDup|]. rewrite range_length; auto. }
      cbn [map]. rewrite E. reflexivity. }
    destruct o as [| | | | | |d|]; try (apply Non; congruence). clear Non. cbn [inner]. symmetry.
    destruct (Nu d eq_refl) as [n Rg]. inversion W as [| | | | | |? N Wg G|]; subst. assert (G' : gates_ok d) by exact G.
    assert (T : time_ordered d (in_order d)) by (split; [apply in_order_perm|apply in_order_sorted]).
    destruct (circ_known G' Es T Rg) as (NR & Lsh & _). rewrite range_length in Lsh. subst n.
    apply dens_den_circ; auto. unfold op_len. rewrite Es. cbn [bind]. congruence.
  Qed.

  Lemma hush_run k g Q psi a : good (g_op g) (shape_or (g_op g)) -> NoDup (g_qubits g) -> length (g_qubits g) = length (shape_or (g_op g)) ->
    NoDup Q -> incl (g_qubits g) Q -> depends_on (S := S) (both Q) psi -> (forall q, In q (both Q) -> a q < 2)%nat ->
    evolve (both Q) (dbl (xc (hush nz (k, g)))) psi a = run (both Q) (map (@dbl S) (with_noise nz [(k, g)])) psi a.
  Proof.
    intros G N L NQ I D Ba. destruct g as [t qs o]. cbn [g_op g_qubits] in *. set (sh := shape_or o) in *.
    destruct (noisy_facts Wz Ez G) as (c1 & _ & En & W1 & Rg & T1 & Es1 & Pt).
    change (dbl (xc (hush nz (k, Gate t qs o)))) with (one_dact (noisy nz o, qs)). rewrite En.
    rewrite (@dens_den_circ S c1 c1 Q (range_names (length sh)) qs); auto.
    2:{ unfold op_len. rewrite Es1. cbn [bind]. rewrite map_length, range_length. congruence. }
    assert (Em : forall l : circ op, map (moved (range_names (length sh)) qs) l =
      map (fun x => (fst x, map (wire_to (range_names (length sh)) qs) (snd x))) (map (fun p => (g_op (snd p), g_qubits (snd p))) l)).
    { intros l. rewrite map_map. reflexivity. }
    rewrite Em, Pt, <- Em. unfold noisy_list. rewrite !map_app, run_app.
    assert (Nr := range_NoDup (length sh)). assert (Lr : length qs = length (range_names (length sh))) by (rewrite range_length; auto).
    assert (E2 : map (@one_dact S) (map (moved (range_names (length sh)) qs) (map (noise_gate nz) (outputs o (range_names (length sh))))) =
      map (@dbl S) (map (fun q => CAct [q] [[LI; LO]] (op_dens nz)) (outputs o qs))).
    { rewrite <- (@wire_to_map (range_names (length sh)) qs Nr Lr) at 2. rewrite outputs_map, !map_map. apply map_ext. intros q.
      unfold moved, noise_gate, one_dact, one_cact. cbn [snd fst g_op g_qubits map]. rewrite (shape_or_eq _ Ez). reflexivity. }
    rewrite E2. unfold with_noise. cbn [flat_map]. rewrite app_nil_r. cbn [map snd g_qubits g_op].
    match goal with |- _ = run ?Q (?x :: ?l) psi a => change (run Q (x :: l) psi a) with (run Q l (evolve Q x psi) a) end.
    apply CircOrder.run_ext; auto; [apply both_NoDup; auto|]. intros e Be. apply (@inner_run o sh); auto.
  Qed.

  Lemma with_noise_cons k g gates : with_noise nz ((k, g) :: gates) = with_noise nz [(k, g)] ++ with_noise nz gates.
  Proof. unfold with_noise. cbn [flat_map]. rewrite app_nil_r. reflexivity. Qed.

  Lemma hush_runs gates Q : NoDup Q -> (forall k g, In (k, g) gates -> good (g_op g) (shape_or (g_op g)) /\ NoDup (g_qubits g) /\
      length (g_qubits g) = length (shape_or (g_op g)) /\ incl (g_qubits g) Q) ->
    forall psi a, depends_on (S := S) (both Q) psi -> (forall q, In q (both Q) -> a q < 2)%nat ->
    run (both Q) (map (@dbl S) (map (@xc S) (map (hush nz) gates))) psi a = run (both Q) (map (@dbl S) (with_noise nz gates)) psi a.
  Proof.
    intros NQ. induction gates as [|[k g] gates IH]; intros H psi a D Ba; auto. destruct (H k g) as (G & N & L & I); [simpl; auto|].
    rewrite with_noise_cons, map_app, run_app. cbn [map].
    match goal with |- run ?Q (?x :: ?l) psi a = _ => change (run Q (x :: l) psi a) with (run Q l (evolve Q x psi) a) end.
    rewrite IH; auto.
    - apply CircOrder.run_ext; auto; [apply both_NoDup; auto|]. intros e Be. apply hush_run; auto.
    - intros k' g' I'. apply (H k' g'). simpl; auto.
    - apply evolve_depends. cbn. apply both_incl. auto.
  Qed.

  (** how wires are used *)
  Lemma with_noise_alike gates q : (forall k g, In (k, g) gates -> op_shape (g_op g) = Ok (shape_or (g_op g)) /\ NoDup (g_qubits g) /\
      length (g_qubits g) = length (shape_or (g_op g))) ->
    alike (history (map (@gate_act S) gates) q) (history (map (@skel S) (with_noise nz gates)) q).
  Proof.
    induction gates as [|[k g] gates IH]; intros H; [apply alike_refl|]. destruct (H k g) as (Eg & N & L); [simpl; auto|].
    rewrite with_noise_cons, map_app, history_app. cbn [map]. rewrite history_cons. apply alike_app; [|apply IH; intros k' g' I'; apply (H k' g'); simpl; auto].
    unfold with_noise. cbn [flat_map snd]. rewrite app_nil_r. cbn [map]. rewrite history_cons.
    set (h := history _ q).
    assert (Eh : h = if mem q (outputs (g_op g) (g_qubits g)) then [LI; LO] else []).
    { unfold h. pose proof (outputs_NoDup (g_op g) N L) as No. rewrite map_map. clear h. induction No as [|x l Nx No IHl]; auto. cbn [map]. rewrite history_cons, IHl.
      assert (E : word_at (skel (CAct [x] [[LI; LO]] (op_dens nz))) q = if eqb q x then [LI; LO] else []).
      { unfold word_at. cbn. destruct (eqb q x); auto. }
      rewrite E. cbn [mem existsb]. destruct (eqb_spec q x) as [->|_]; cbn [orb app]; auto. rewrite (proj2 (mem_false x l) Nx). auto. }
    rewrite Eh. destruct g as [t qs o]. cbn [g_op g_qubits] in *. change (word_at (gate_act (k, Gate t qs o)) q) with (word_at (Act qs (map role_word (shape_or o)) (fun _ _ => k0 (s := S))) q).
    change (word_at (skel (CAct qs (map role_word (shape_or o)) (op_dens o))) q) with (word_at (Act qs (map role_word (shape_or o)) (fun _ _ => k0 (s := S))) q).
    destruct (mem q (outputs o qs)) eqn:M; [|rewrite app_nil_r; apply alike_refl]. apply mem_In in M. apply (outputs_In o q N L) in M as [_ M].
    destruct (word_at (Act qs (map role_word (shape_or o)) (fun _ _ => k0 (s := S))) q) as [|b w] eqn:E; [discriminate|].
    split; [reflexivity|]. split; [reflexivity|]. rewrite ends_out_app by discriminate. exact M.
  Qed.
  Lemma with_noise_fits gates : (forall k g, In (k, g) gates -> length (g_qubits g) = length (shape_or (g_op g))) -> Forall (@fits S) (with_noise nz gates).
  Proof.
    induction gates as [|[k g] gates IH]; intros H; [constructor|]. rewrite with_noise_cons. apply Forall_app. split; [|apply IH; intros k' g' I'; apply (H k' g'); simpl; auto].
    unfold with_noise. cbn [flat_map snd]. rewrite app_nil_r. constructor.
    - unfold fits. cbn. rewrite map_length. apply (H k); simpl; auto.
    - rewrite Forall_map. apply Forall_forall. intros q _. reflexivity.
  Qed.

  Theorem add_noise_dens (c gates : circ op) sh Q : op_wf (OCirc c) -> op_shape (OCirc c) = Ok sh -> (forall k g, In (k, g) c -> numbered (g_op g)) ->
    time_ordered c gates -> register c Q ->
    exists sh', op_shape (OCirc (map (hush nz) c)) = Ok sh' /\ map role_in sh' = map role_in sh /\ map role_out sh' = map role_out sh /\
      forall x y x' y', bits (count role_out sh) x -> bits (count role_out sh) x' ->
        op_dens (OCirc (map (hush nz) c)) x y x' y' = channel Q (with_noise nz gates) x y x' y'.
  Proof.
    intros W Es Nu T Rg. inversion W as [| | | | | |? N Wg G|]; subst. assert (G' : gates_ok c) by exact G.
    destruct (hush_wf Wz Ez W Es Nu) as [Wd Gd]. destruct (hush_shape Wz Ez W Es Nu T Rg) as (sh' & Es' & Esh' & Al' & Ak).
    destruct (circ_known G' Es T Rg) as (NR & Lsh & Fit & Al & Esh & Ip & Co & _).
    destruct (circ_known Gd Es' (hush_order nz T) (hush_register nz Rg)) as (_ & _ & _ & _ & _ & _ & Co' & _).
    exists sh'. split; auto. split; [|split].
    - rewrite Esh, Esh'. rewrite 2!(@map_map _ _ _ _ role_in). apply map_ext. intros q. cbn [role_in]. destruct (truncate_shape _ (Al q)) as (-> & _). destruct (truncate_shape _ (Al' q)) as (-> & _).
      symmetry. apply (Ak q).
    - rewrite Esh, Esh'. rewrite 2!(@map_map _ _ _ _ role_out). apply map_ext. intros q. cbn [role_out]. destruct (truncate_shape _ (Al q)) as (_ & -> & _). destruct (truncate_shape _ (Al' q)) as (_ & -> & _).
      symmetry. apply (Ak q).
    - assert (Hg : forall k g, In (k, g) gates -> good (g_op g) (shape_or (g_op g)) /\ NoDup (g_qubits g) /\
        length (g_qubits g) = length (shape_or (g_op g)) /\ incl (g_qubits g) Q).
      { intros k g I. destruct (gate_good W Es Nu _ _ (Ip _ I)) as (A1 & A2 & A3). split; auto. split; auto. split; auto.
        intros q Iq. apply (proj1 Rg). exists k, g. auto. }
      assert (Ec : count role_out sh' = count role_out sh).
      { rewrite Co, Co'. f_equal. apply filter_ext. intros q. symmetry. apply (Ak q). }
      intros x y x' y' Bx Bx'. rewrite (@dens_order (map (hush nz) c) (map (hush nz) gates) sh' Q); auto; try (rewrite Ec; auto);
        [|apply hush_order; auto|apply hush_register; auto].
      destruct (dens_known Gd Es' (hush_order nz T) (hush_register nz Rg)) as [Ft _].
      assert (Fn : Forall (@fits S) (with_noise nz gates)) by (apply with_noise_fits; intros k g I; apply (Hg k g I)).
      assert (An : forall q, alike (history (map (@gate_act S) gates) q) (history (map (@skel S) (with_noise nz gates)) q)).
      { intros q. apply with_noise_alike. intros k g I. destruct (Hg k g I) as ((_ & A0 & _) & A2 & A3 & _). auto. }
      unfold channel, amplitude.
      assert (Eo : wires_out (both Q) (map (@dbl S) (map (@xc S) (map (hush nz) gates))) = wires_out (both Q) (map (@dbl S) (with_noise nz gates))).
      { rewrite !dbl_wires_out by auto. f_equal. apply filter_ext. intros q. rewrite xc_words. destruct (Ak q) as (_ & _ & <-). apply (An q). }
      assert (Ei : wires_in (both Q) (map (@dbl S) (map (@xc S) (map (hush nz) gates))) = wires_in (both Q) (map (@dbl S) (with_noise nz gates))).
      { rewrite !dbl_wires_in by auto. f_equal. apply filter_ext. intros q. rewrite xc_words. destruct (Ak q) as (_ & <- & _). apply (An q). }
      rewrite Eo, Ei. apply hush_runs; auto; [apply basis_depends|]. intros q _. apply bits_place.
      rewrite dbl_wires_out by auto. unfold both. rewrite app_length, !map_length.
      replace (length (wires_out Q (map (@skel S) (with_noise nz gates)))) with (count role_out sh); [apply bits_app; auto|].
      rewrite Co. f_equal. apply filter_ext. intros z. apply (An z).
  Qed.
End Add.
