(** * measure and collapse *)
From Coq Require Import Reals Lra Sorting.Permutation Sorting.Sorted.
From Verif Require Import Base Scalar NetSpec Sums NetAlg ModelArray ModelTN TNSpec ModelVal ModelOps OpsSpec ModelContract NameOrder CircSpec CircSum CircOrder ModelCircuit CircSem CircShape CircWire
  CircCtrl CircOp CircMain CircBuild CircUse DensSpec CircDens CircDensNet CircDensOp CircPure ChanCirc ChanTrace CircFlat FlatSpec CircNest CircNest2 CircNest3 ModelNoise NoisySpec NoiseAdd NoiseAdd2 NoiseAdd4
  Complex GateSpec ModelGates GateProofs MatSpec MatProofs NoiseSpec DeepSpec MeasureSpec MeasEvolve MeasRun MeasExtend MeasFacts MeasFacts2 MeasOne MeasState ModelMeasure Props_Gates Props_Noise.
Set Implicit Arguments.
Local Open Scope K_scope.
Add Ring CKring_mm : (kring CK).
Notation op := (op CK).

Lemma trace_facts : op_wf TraceOp /\ no_super TraceOp /\ op_shape TraceOp = Ok [RW [LI]] /\
  forall u v, (u < 2)%nat -> (v < 2)%nat -> op_dens TraceOp [] [u] [] [v] = kdelta (Nat.eqb u v).
Proof.
  assert (W : op_wf TraceOp) by wf_open. assert (N : no_super TraceOp) by constructor. split; auto. split; auto. split; [reflexivity|].
  intros u v Hu Hv. destruct C41_measurement as (_ & _ & (w & Ew & _ & V) & _).
  destruct (dens_ok W N (eq_refl : op_shape TraceOp = Ok [RW [LI]])) as (w' & Ew' & _ & _ & V'). rewrite Ew in Ew'. injection Ew' as <-.
  assert (B0 : bits 0 []) by (split; auto; constructor). assert (B1 : forall a, (a < 2)%nat -> bits 1 [a]) by (intros a Ha; split; auto).
  rewrite <- V' by auto. change (entries_of w [] [u] [] [v] = kdelta (Nat.eqb u v)). rewrite V by auto.
  change (eqb [u] [v]) with (Nat.eqb u v && true). rewrite andb_true_r. auto.
Qed.

Definition scale_op (a : CK) : op := OPure false [] (VTensor (Some (nd_scalar a))).
Lemma scale_facts a : mk_pure false [] (VTensor (Some (nd_scalar a))) = Ok (scale_op a) /\ op_wf (scale_op a) /\ no_super (scale_op a) /\ op_shape (scale_op a) = Ok [] /\
  op_dens (scale_op a) [] [] [] [] = a * kconj a.
Proof.
  split; [reflexivity|]. split; [constructor; [apply complete_tensor|reflexivity|reflexivity]|]. split; [constructor|]. split; [reflexivity|]. reflexivity.
Qed.
Lemma scale_inv p : (0 < p)%R -> cr (1 / sqrt p) * kconj (cr (1 / sqrt p)) = cr (/ p).
Proof.
  intros H. assert (E := sqrt_sqrt p ltac:(lra)). assert (P := sqrt_lt_R0 p H). ck; [|ring].
  replace (/ p)%R with (/ (sqrt p * sqrt p))%R by (rewrite E; auto). field. lra.
Qed.

Lemma late_extended (l : circ op) : forall c, late_names_free c -> late_names_free (extended c l).
Proof.
  unfold extended. induction l as [|[k g] l IH]; intros c F; cbn [stacked_after]; [rewrite app_nil_r; auto|].
  set (t := (1 + max_time c)%Z). pose proof (IH _ (late_snoc (g_qubits g) (g_op g) F (eq_refl t))) as H.
  rewrite <- app_assoc in H. cbn [app] in H. rewrite max_time_snoc in H. cbn [snd g_time] in H.
  assert (Et : (1 + match c with [] => t | _ => Z.max (max_time c) t end = t + 1)%Z) by (destruct c; unfold t; lia). rewrite Et in H. exact H.
Qed.

Lemma prep_is_in n : count is_in (repeat (RW [LO]) n) = 0%nat. Proof. induction n; auto. Qed.
Lemma prep_is_out n : count is_out (repeat (RW [LO]) n) = n. Proof. induction n as [|n IH]; auto. cbn. f_equal. auto. Qed.
Section Main.
  Context (contract : tval CK -> res (nd CK)) (Ct : contracts contract).

  (** ** what a circuit prepares *)
  Lemma prepares_dens c n rho sh : op_wf (OCirc c) -> no_super (OCirc c) -> op_shape (OCirc c) = Ok sh -> prepares c n rho ->
    count role_in sh = 0%nat /\ count role_out sh = n /\ forall x x', bits n x -> bits n x' -> op_dens (OCirc c) x [] x' [] = rho x x'.
  Proof.
    intros W Ns Es (s & v & Es' & Ci & Co & Ev & Sv & V). rewrite Es in Es'. injection Es' as <-. split; auto. split; auto.
    destruct (dens_ok W Ns Es) as (v' & Ev' & _ & _ & V'). rewrite Ev in Ev'. injection Ev' as <-. rewrite Ci, Co in V'. intros x x' B B'.
    assert (B0 : bits 0 []) by (split; auto; constructor). rewrite <- V' by auto. cbn [app]. rewrite app_nil_r. auto.
  Qed.
  Lemma dens_prepares c n rho sh : op_wf (OCirc c) -> no_super (OCirc c) -> op_shape (OCirc c) = Ok sh -> count role_in sh = 0%nat -> count role_out sh = n ->
    (forall x x', bits n x -> bits n x' -> op_dens (OCirc c) x [] x' [] = rho x x') -> prepares c n rho.
  Proof.
    intros W Ns Es Ci Co H. destruct (dens_ok W Ns Es) as (v & Ev & _ & Sv & V). exists sh, v. rewrite Ci, Co in *.
    split; auto. split; auto. split; auto. split; auto. split; [rewrite Sv; f_equal; lia|].
    intros x x' B B'. assert (B0 : bits 0 []) by (split; auto; constructor). rewrite <- H, <- V by auto. cbn [app]. rewrite app_nil_r. auto.
  Qed.

  (** ** collapse *)
  Lemma sorted_positions p sh : StronglySorted (fun a b => name_lt a b = Ok true) (pos_names (positions p sh)).
  Proof.
    unfold pos_names, positions. generalize 0%nat as k. induction sh as [|r sh IH]; intros k; cbn [length seq combine filter snd]; [constructor|].
    destruct (p r); [|apply IH]. cbn [map fst]. constructor; [apply IH|].
    rewrite Forall_map, Forall_map, Forall_forall. intros [i r'] I. apply filter_In in I as [I _]. apply in_combine_l in I. apply in_seq in I.
    cbn. f_equal. apply Z.ltb_lt. lia.
  Qed.
  Lemma NoDup_positions p sh : NoDup (pos_names (positions p sh)).
  Proof.
    generalize (sorted_positions p sh). generalize (pos_names (positions p sh)) as l. induction l as [|a l IH]; intros H; constructor; inversion H as [|? ? H1 H2]; subst; auto.
    intros I. rewrite Forall_forall in H2. specialize (H2 a I). revert H2. apply name_lt_irrefl.
  Qed.
  Lemma shape_twos v (a : nd CK) m : tval_shape v = twos m -> array_of v a -> shape_is (VTensor (Some a)) m = true /\
    tval_shape (VTensor (Some a)) = twos m /\ complete (VTensor (Some a)) /\ forall x, bits m x -> tval_value (VTensor (Some a)) x = tval_value v x.
  Proof.
    intros Sv [Sa Va]. assert (E : tval_shape (VTensor (Some a)) = twos m) by (rewrite <- Sv; symmetry; exact Sa).
    split; [unfold shape_is; rewrite E; apply eqb_refl|]. split; auto. split; [apply complete_tensor|].
    intros x [L B]. change (nd_at a x = tval_value v x). apply Va.
    assert (En : nd_shape a = repeat 2%nat m).
    { rewrite Sv in Sa. unfold twos in Sa. injection Sa as Sa. clear -Sa. revert Sa. generalize (nd_shape a) as l. induction m as [|m IH]; intros [|d l] E; try discriminate; auto.
      cbn in E. injection E as E1 E2. cbn. f_equal; auto. }
    rewrite En. apply in_shape_bits. split; auto.
  Qed.
  Theorem collapse_ok c n rho : op_wf (OCirc c) -> no_super (OCirc c) -> prepares c n rho ->
    exists key t qs o, collapse contract c = Ok [(key, Gate t qs o)] /\ op_wf (OCirc [(key, Gate t qs o)]) /\ no_super (OCirc [(key, Gate t qs o)]) /\
      (exists sh, op_shape (OCirc c) = Ok sh /\ qs = pos_names (positions role_out sh)) /\
      prepares [(key, Gate t qs o)] n rho.
  Proof.
    intros W Ns P. pose proof P as (sh & v & Es & Ci & Co & Ev & Sv & V). destruct (prepares_dens W Ns Es P) as (_ & _ & D).
    unfold collapse. rewrite Es. cbn [bind]. assert (E0 : length (positions role_in sh) = 0%nat) by (rewrite positions_count; auto). rewrite E0. cbn [Nat.eqb negb].
    set (qs := pos_names (positions role_out sh)). assert (Lq : length qs = n) by (unfold qs, pos_names; rewrite map_length, positions_count; auto).
    assert (Lp : length (positions role_out sh) = n) by (rewrite positions_count; auto). rewrite Lp.
    destruct (pure_total W Es) as [b Eb]. rewrite Eb. cbn [bind].
    assert (K : forall o : op, op_wf o -> no_super o -> op_shape o = Ok (repeat (RW [LO]) n) -> (forall x x', bits n x -> bits n x' -> op_dens o x [] x' [] = rho x x') ->
      exists key t qs' o', c_append o qs None None [] = Ok [(key, Gate t qs' o')] /\ op_wf (OCirc [(key, Gate t qs' o')]) /\ no_super (OCirc [(key, Gate t qs' o')]) /\
        (exists sh0, Ok sh = Ok sh0 /\ qs' = pos_names (positions role_out sh0)) /\ prepares [(key, Gate t qs' o')] n rho).
    { intros o Wo No Eo Do. rewrite <- Lq in Eo. pose proof (NoDup_positions role_out sh) as Nq. fold qs in Nq. pose proof (sorted_positions role_out sh) as Sq. fold qs in Sq.
      pose proof (@one_gates CK o qs NN 0%Z Eo Nq) as G. pose proof (@extend_ok CK [(NN, Gate 0%Z qs o)] [] G) as X. cbn [app] in X. specialize (X ltac:(intros t' qs' _ [])).
      cbn [c_extend g_op g_qubits stacked_after] in X.
      exists (NT [NI (1 + max_time (@nil (name * gate op)))%Z; NT qs]), (1 + max_time (@nil (name * gate op)))%Z, qs, o. split.
      { destruct (c_append o qs None None []) as [r|e]; cbn [bind] in X; [|discriminate]. injection X as ->. reflexivity. }
      destruct (@one_wf CK o qs (NT [NI (1 + max_time (@nil (name * gate op)))%Z; NT qs]) (1 + max_time (@nil (name * gate op)))%Z Wo No Eo Nq) as [W1 N1]. split; auto. split; auto.
      split; [exists sh; auto|].
      destruct (@one_shape CK o qs (NT [NI (1 + max_time (@nil (name * gate op)))%Z; NT qs]) (1 + max_time (@nil (name * gate op)))%Z Eo Sq Nq) as (s1 & Es1 & Ci1 & Co1 & D1).
      rewrite Lq in Co1, D1. eapply dens_prepares; eauto. intros x x' B B'. rewrite D1 by auto. auto. }
    assert (B0 : bits 0 []) by (split; auto; constructor).
    destruct b.
    - destruct (proj1 (conv_ok W) Eb) as (s & Es' & u & Eu & _ & Su & Vu). rewrite Es in Es'. injection Es' as <-. change (tensor_pure (OCirc c) = Ok u) in Eu. rewrite Eu. cbn [bind].
      rewrite Ci, Co, Nat.add_0_r in *. destruct (Ct W (or_introl (conj Eb Eu))) as (a & Ea & Aa). rewrite Ea. cbn [bind].
      destruct (@shape_twos _ _ _ Su Aa) as (Is & Sa & Ca & Va).
      unfold mk_pure. rewrite prep_is_in, prep_is_out. cbn [Nat.add]. rewrite Is. cbn [bind].
      apply K.
      + constructor; auto. * clear; induction n; auto. * rewrite prep_is_in, prep_is_out. auto.
      + constructor.
      + reflexivity.
      + intros x x' B B'. rewrite <- D by auto. rewrite (dens_pure W Ns Eb Es) by (rewrite ?Ci, ?Co; auto).
        rewrite <- (Vu x []), <- (Vu x' []) by auto.
        change (tval_value (VTensor (Some a)) (x ++ []) * kconj (tval_value (VTensor (Some a)) (x' ++ [])) = tval_value u (x ++ []) * kconj (tval_value u (x' ++ []))).
        rewrite !app_nil_r, !Va by auto. auto.
    - rewrite Ev. cbn [bind]. destruct (Ct W (or_intror (conj Ns (conj (ex_intro _ _ Es) Ev)))) as (a & Ea & Aa). rewrite Ea. cbn [bind].
      destruct (@shape_twos _ _ _ Sv Aa) as (Is & Sa & Ca & Va).
      assert (E2 : (2 * (count is_in (repeat (RW [LO]) n) + count is_out (repeat (RW [LO]) n)) = n + n)%nat).
      { rewrite prep_is_in, prep_is_out. lia. }
      unfold mk_imm. rewrite E2, Is. cbn [bind]. apply K.
      + constructor; auto. * clear; induction n; auto. * rewrite E2. auto.
      + constructor.
      + reflexivity.
      + intros x x' B B'. cbn [op_dens app]. rewrite app_nil_r. rewrite Va by (apply bits_app; auto). auto.
  Qed.

  (** ** measure *)
  Context (c : circ op) (N n k : nat) (q : name) (rho : mat CK).
  Hypothesis R : on_range c N.
  Hypothesis P : prepares c (Datatypes.S n) rho.
  Hypothesis Oq : output_at c k q.

  Lemma setting : exists sh l1 l2, op_shape (OCirc c) = Ok sh /\ count role_in sh = 0%nat /\ outs c N = l1 ++ q :: l2 /\ length l1 = k /\ length (l1 ++ l2) = n /\ (k <= n)%nat /\
    forall x x', bits (Datatypes.S n) x -> bits (Datatypes.S n) x' -> op_dens (OCirc c) x [] x' [] = rho x x'.
  Proof.
    destruct R as (W & Ns & Rg & Lf). destruct Oq as (sh & i & Es & En & ->). destruct (prepares_dens W Ns Es P) as (Ci & Co & D).
    destruct (outs_names N W Es Rg) as [Po Lo].
    apply (map_nth_error (fun i => NI (Z.of_nat i))) in En. rewrite Po in En. apply nth_error_split in En as (l1 & l2 & E & L).
    exists sh, l1, l2. split; auto. split; auto. split; auto. split; auto.
    assert (X : length (outs c N) = Datatypes.S n) by lia. rewrite E, app_length in X. cbn [length] in X. rewrite app_length. split; [lia|]. split; [lia|auto].
  Qed.
  Lemma append_meas (o : op) qs d : c_append o qs None None d = c_extend [(NN, Gate 0%Z qs o)] d.
  Proof. cbn [c_extend g_op g_qubits]. destruct (c_append o qs None None d); auto. Qed.
  Lemma traces_extend idx : forall d, ~ In q (pos_names idx) -> trace_each q idx d = c_extend (map (noise_gate TraceOp) (pos_names idx)) d.
  Proof.
    induction idx as [|i r IH]; intros d Nq; auto. cbn [trace_each pos_names map noise_gate c_extend g_op g_qubits].
    destruct (eqb_spec (NI (Z.of_nat i)) q) as [E|_]; [exfalso; apply Nq; left; auto|].
    destruct (c_append TraceOp [NI (Z.of_nat i)] None None d); cbn [bind]; auto. apply IH. intros I. apply Nq. right. auto.
  Qed.
  Lemma copy_c : c_copy c [] = Ok c.
  Proof. destruct R as (W & _). inversion W as [| | | | | |? Nk Wg G|]; subst. apply copy_ok; auto. Qed.

  Theorem prob_one_ok : prob_one contract c q = Ok (born n k 1 rho).
  Proof.
    destruct setting as (sh & l1 & l2 & Es & Ci & EO & <- & Ln & Hk & D). destruct R as (W & Ns & Rg & Lf). destruct trace_facts as (Wt & Nt & Et & Dt).
    destruct (measured_ok N W Es Rg Ci l1 l2 q EO true) as [A F].
    destruct (ext_psi W Ns Es Lf Rg Ci A) as (Em & _ & _ & _ & sm & Esm & _ & _ & Pm & _).
    { apply (hist_live N W Es Rg Ci l1 l2 q EO _ (fun _ => [LI]) (hist_measured CK q true)). }
    rewrite F in Pm. destruct (q_facts N W Es Rg Ci l1 l2 q EO) as (_ & _ & _ & Nq & _).
    destruct (asked_value Wt Nt Et Dt N W Ns Es Lf Rg Ci l1 l2 q EO) as (Ea & Wa & Na & sa & Esa & Cia & Coa & Va).
    unfold prob_one. rewrite copy_c. cbn [bind]. rewrite append_meas. change [(NN, Gate 0%Z [q] (OMeas true))] with (measured CK q true). rewrite Em. cbn [bind]. rewrite Esm. cbn [bind].
    change (map (fun i => NI (Z.of_nat i)) (positions role_out sm)) with (pos_names (positions role_out sm)) in Pm.
    rewrite traces_extend by (rewrite Pm; auto). rewrite Pm.
    assert (Ea' : c_extend (map (noise_gate TraceOp) (l1 ++ l2)) (extended c (measured CK q true)) = Ok (extended c (asked TraceOp l1 l2 q))).
    { rewrite <- Ea. unfold asked. change (noise_gate (OMeas true) q :: map (noise_gate TraceOp) (l1 ++ l2)) with (measured CK q true ++ map (noise_gate TraceOp) (l1 ++ l2)).
      rewrite extend_app, Em. auto. }
    rewrite Ea'. cbn [bind]. destruct (dens_ok Wa Na Esa) as (v & Ev & _ & Sv & Vv). rewrite Ev. cbn [bind]. rewrite Cia, Coa in *.
    destruct (Ct Wa (or_intror (conj Na (conj (ex_intro _ _ Esa) Ev)))) as (a & Ec & Sa & Aa). rewrite Ec. cbn [bind].
    rewrite Sv in Sa. cbn in Sa. injection Sa as Sa. destruct (nd_shape a) as [|d r] eqn:Eda; [|discriminate Sa].
    rewrite Aa by auto. assert (B0 : bits 0 []) by (split; auto; constructor).
    pose proof (Vv [] [] [] [] B0 B0 B0 B0) as V0. cbn [app] in V0. rewrite V0, Va, Ln. unfold born. do 2 f_equal.
    apply sumf_ext. intros y Iy. apply in_words in Iy. apply D; apply ins_bits2; auto.
  Qed.

  Hypothesis St : state (Datatypes.S n) rho.
  Context (b : bool).
  Notation p := (born n k (bit b) rho).
  Hypothesis Hp : (0 < p)%R.

  Lemma prob_used : (if b then born n k 1 rho else 1 - born n k 1 rho)%R = p.
  Proof. destruct setting as (_ & _ & _ & _ & _ & _ & _ & _ & Hk & _). pose proof (born_one Hk St). destruct b; cbn [bit] in *; lra. Qed.
  Lemma prob_range : (0 <= born n k 1 rho <= 1)%R.
  Proof.
    destruct setting as (_ & _ & _ & _ & _ & _ & _ & _ & Hk & _). pose proof (born_one Hk St). pose proof (born_pos Hk St (b := 0) ltac:(lia)). pose proof (born_pos Hk St (b := 1) ltac:(lia)). lra.
  Qed.
  Lemma measure_unfold remove coll : measure contract c q b remove coll =
    do d <- c_extend (if remove then removed (scale_op (cr (1 / sqrt p))) q b else kept (scale_op (cr (1 / sqrt p))) q b) c; if coll then collapse contract d else Ok d.
  Proof.
    unfold measure. rewrite prob_one_ok. cbn [bind]. pose proof prob_range. destruct (Rlt_dec _ 0); [lra|]. destruct (Rlt_dec 1 _); [lra|].
    rewrite prob_used, copy_c. cbn [bind].
    destruct (scale_facts (cr (1 / sqrt p))) as (Em & _). rewrite Em.
    destruct remove; unfold removed, kept; cbn [c_extend noise_gate none_gate g_op g_qubits];
      destruct (c_append (OMeas b) [q] None None c) as [d|]; cbn [bind]; auto; destruct (c_append (scale_op _) [] None None d) as [d2|]; cbn [bind]; auto.
  Qed.
  Theorem removed_ok2 : exists d, measure contract c q b true false = Ok d /\ on_range d N /\ prepares d n (without k (bit b) p rho) /\ measure contract c q b true true = collapse contract d.
  Proof.
    destruct setting as (sh & l1 & l2 & Es & Ci & EO & Lk & Ln & Hk & D). destruct R as (W & Ns & Rg & Lf).
    destruct (scale_facts (cr (1 / sqrt p))) as (_ & Wk & Nk & Ek & Dk). rewrite (scale_inv Hp) in Dk.
    destruct (removed_value Wk Nk Ek Dk N W Ns Es Lf Rg Ci l1 l2 q EO b) as (Ee & We & Ne & Re & se & Ese & Cie & Coe & Ve).
    rewrite !measure_unfold, Ee. cbn [bind]. eexists. split; [reflexivity|]. split; [split; [auto|split; [auto|split; [auto|exact (late_extended _ Lf)]]]|]. split; auto.
    rewrite Ln in *. eapply dens_prepares; eauto. intros y y' B B'. rewrite Ve by auto. unfold without. rewrite Lk, D; auto; apply ins_bits2; auto; destruct b; cbn; lia.
  Qed.
  Theorem kept_ok2 : exists d, measure contract c q b false false = Ok d /\ on_range d N /\ prepares d (Datatypes.S n) (given k (bit b) p rho) /\ measure contract c q b false true = collapse contract d.
  Proof.
    destruct setting as (sh & l1 & l2 & Es & Ci & EO & Lk & Ln & Hk & D). destruct R as (W & Ns & Rg & Lf).
    destruct (scale_facts (cr (1 / sqrt p))) as (_ & Wk & Nk & Ek & Dk). rewrite (scale_inv Hp) in Dk.
    destruct (kept_value Wk Nk Ek Dk N W Ns Es Lf Rg Ci l1 l2 q EO b) as (Ee & We & Ne & Re & se & Ese & Cie & Coe & Ve).
    rewrite !measure_unfold, Ee. cbn [bind]. eexists. split; [reflexivity|]. split; [split; [auto|split; [auto|split; [auto|exact (late_extended _ Lf)]]]|]. split; auto.
    rewrite Ln in *. eapply dens_prepares; eauto. intros x x' B B'. rewrite Ve by auto. unfold given. rewrite Lk, D by auto. auto.
  Qed.
End Main.
