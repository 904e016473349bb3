(** * C61: a | b composes channels; the overlap of a noisy state with a pure one

    [op_dens], [op_amp] (DensSpec.v, CircSem.v): the channel and the amplitudes of an operation; [gate_act] (CircBuild.v): an operation of a circuit on its
    qubits; [history]: the letters I (consumes) and O (produces) that a list of operations has on a qubit. *)
From Coq Require Import Reals Lra Lia String Sorting.Permutation Sorting.Sorted.
From Verif Require Import Base Scalar NetSpec Sums NetAlg ModelArray ModelTN TNInv TNValue ModelVal ModelOps OpsSpec ModelContract ModelNest NestSpec NameOrder CircSpec CircOrder ModelCircuit CircSem
  CircShape CircWire CircCtrl CircOp CircMain CircBuild CircUse CircAdj DensSpec CircDens CircDensOp CircPure ChanCirc CircNest MatSpec MatProofs NoiseSpec ModelNoise NoisySpec NoiseAdd NoiseAdd2 NoiseAdd3 NoiseAdd5 ModelDeep DeepSpec OrderSpec
  ModelOrder OrderProofs OrderNet DeepFind Complex GateSpec ModelGates GateProofs Props_Order Props_Deep Props_Noise CoreSpec Props_CircContract ModelGhz GhzProofs Props_Ghz ChanOr ChanFid NoiseAdd4 GhzFid.
Set Implicit Arguments.
Open Scope nat_scope.

(** For circuits of any operations, channels included: when the outputs of [c] are the inputs of [d], the density tensor of c | d is the
    composition of the two channels, first that of [c].  As in C37 the qubits alternate, their names compare, and no operation of [c] has a
    name that looks like a default name for a later time. *)
Theorem C61_or (S : scalar) (c d : circ (op S)) sc sd :
  op_wf (OCirc c) -> op_wf (OCirc d) -> no_super (OCirc c) -> no_super (OCirc d) ->
  op_shape (OCirc c) = Ok sc -> op_shape (OCirc d) = Ok sd -> late_names_free c ->
  let gs := map (@gate_act S) (in_order c) in
  let hs := map (@gate_act S) (in_order d) in
  (forall q, alternating (history (gs ++ hs) q)) ->
  (forall q, ends_out (history gs q) = starts_in (history hs q)) ->
  (forall x y, acts_used (gs ++ hs) x -> acts_used (gs ++ hs) y -> x <> y -> exists r, name_lt x y = Ok r) ->
  exists r v vc vd, op_or (OCirc c) (OCirc d) = Ok r /\ tensor_density r = Ok v /\ tensor_density (OCirc c) = Ok vc /\ tensor_density (OCirc d) = Ok vd /\
    let n := count role_out sd in
    let m := count role_in sc in
    let between := indices (repeat 2 (count role_out sc)) in
    tval_shape v = twos ((n + m) + (n + m)) /\
    forall o i o' i', bits n o -> bits m i -> bits n o' -> bits m i' ->
      tval_value v (o ++ i ++ o' ++ i') =
      sumf (fun z => sumf (fun z' => kmul (tval_value vd (o ++ z ++ o' ++ z')) (tval_value vc (z ++ i ++ z' ++ i'))) between) between.
Proof.
  intros Wc Wd Nc Nd Ec Ed Lf gs hs Al Ew Cmp.
  destruct (or_density Wc Wd Nc Nd Ec Ed Lf Al Ew Cmp) as (Er & We & Ne & sh & Es & Co & Ci & Lz & D).
  destruct (dens_ok We Ne Es) as (v & Ev & _ & Sv & Vv). destruct (dens_ok Wc Nc Ec) as (vc & Evc & _ & _ & Vc). destruct (dens_ok Wd Nd Ed) as (vd & Evd & _ & _ & Vd).
  eexists _, v, vc, vd. split; [exact Er|]. do 3 (split; auto). cbn zeta. rewrite Co, Ci in *. split; auto.
  intros o i o' i' Bo Bi Bo' Bi'. rewrite Vv, D by auto. apply sumf_ext. intros z Iz. apply sumf_ext. intros z' Iz'. apply in_bits in Iz, Iz'.
  rewrite Vd, Vc; auto; rewrite Lz; auto.
Qed.
Print Assumptions C61_or.

(** The overlap: [b] is any circuit that prepares a state of the qubits [Q], channels included, [a] a pure circuit that prepares a state of the same
    qubits ([prepared]: no qubit is an input, all are outputs; [reversible], as in C38).  Then (b | a.adjoint()).tensor_density.contract() is the number
    <a|b|a>: the sum of conj(a(m)) b(m,m') a(m') over all m, m'. *)
Theorem C61_overlap (S : scalar) (ord : list name -> list name) (memory : Z) (sp : ostep -> opath) (cost : tn (tval S) -> Z) (b a : circ (op S)) sb sa Q :
  (forall l, Permutation (ord l) l) -> good_paths sp -> (forall n, (cost n * 48 <= memory * 2 ^ 30)%Z) ->
  op_wf (OCirc b) -> no_super (OCirc b) -> plain_op (OCirc b) -> op_shape (OCirc b) = Ok sb -> prepared sb -> late_names_free b -> register b Q ->
  op_wf (OCirc a) -> no_super (OCirc a) -> reversible (OCirc a) -> op_pure (OCirc a) = Ok true -> op_shape (OCirc a) = Ok sa -> prepared sa -> register a Q ->
  (forall a', adj (OCirc a) = Ok a' -> plain_op a') ->
  exists a' r v k t vb va, adj (OCirc a) = Ok a' /\ op_or (OCirc b) a' = Ok r /\ tensor_density r = Ok v /\
    (forall fuel, k <= fuel -> contract_val ord memory (finder sp cost) fuel v = Ok t) /\
    tensor_density (OCirc b) = Ok vb /\ tensor_pure (OCirc a) = Ok va /\ nd_shape t = [] /\
    let all := indices (repeat 2 (length Q)) in
    nd_at t [] = sumf (fun m => sumf (fun m' => kmul (kmul (kconj (tval_value va m)) (tval_value vb (m ++ m'))) (tval_value va m')) all) all.
Proof.
  intros Po Gp Mem Wb Nb Pb Eb Rb Lf Rgb Wa Na Ra Pa Ea Qa Rga Pla.
  destruct (@overlap S b a sb sa Q Wb Nb Eb Rb Lf Wa Na Ra Pa Ea Qa Rgb Rga) as (a' & r & Ad & Or & -> & Wr & Nr & sh & Es & Co & Ci & D).
  assert (Pr : plain_op (OCirc (b ++ stacked_after (1 + max_time b) (in_order a')))).
  { specialize (Pla _ Ad). inversion Pla as [| | | | |? Pl|]; subst. inversion Pb as [| | | | |? Plb|]; subst. constructor. intros k t qs x I.
    apply in_app_iff in I as [I|I]; [eapply Plb; eauto|]. apply stacked_In in I as (k0 & [t0 q0 x0] & I & _ & Ex & _ & ->). cbn in Ex. subst x0.
    split; [left; eauto|]. eapply Pl. eapply Permutation_in; [apply Permutation_sym, in_order_perm|exact I]. }
  destruct (@C59_density S ord memory sp cost _ _ Po Gp Mem Wr Nr Pr Es) as (v & k & t & Ev & Ca & St & Vt).
  destruct (dens_ok Wb Nb Eb) as (vb & Evb & _ & _ & Vb). destruct (proj1 (conv_ok Wa) Pa) as (sa' & Ea' & va & Eva & _ & _ & Va).
  rewrite Ea in Ea'. injection Ea' as <-.
  exists (OCirc a'), (OCirc (b ++ stacked_after (1 + max_time b) (in_order a'))), v, k, t, vb, va. do 6 (split; auto).
  cbn zeta in *. rewrite Co, Ci in *. split; auto. assert (B0 : bits 0 []) by (split; auto).
  rewrite (Vt [] [] [] [] B0 B0 B0 B0 : nd_at t [] = _), D. apply sumf_ext. intros m Im. apply sumf_ext. intros m' Im'. apply in_bits in Im, Im'.
  destruct (prepared_counts Rb) as [Ib Ob]. destruct (prepared_counts Qa) as [Ia Oa].
  assert (Lb : length sb = length Q).
  { inversion Wb as [| | | | | |? Kb Wgb Gb|]; subst. apply (circ_known Gb Eb (conj (in_order_perm b) (@in_order_sorted _ b)) Rgb). }
  assert (La : length sa = length Q).
  { inversion Wa as [| | | | | |? Kb Wgb Ga|]; subst. apply (circ_known Ga Ea (conj (in_order_perm a) (@in_order_sorted _ a)) Rga). }
  rewrite Ib, Ob, Lb in Vb. rewrite Ia, Oa, La in Va.
  assert (E1 := Vb m [] m' [] Im B0 Im' B0). cbn [app] in E1. rewrite app_nil_r in E1. rewrite E1.
  assert (E2 := Va m [] Im B0). assert (E3 := Va m' [] Im' B0). rewrite app_nil_r in E2, E3. rewrite E2, E3. reflexivity.
Qed.
Print Assumptions C61_overlap.

(** ** The number that examples/GHZ.py prints *)
Lemma ghz_plain n : plain_op (OCirc (stacked_after 0 (ghz_list n))).
Proof.
  constructor. intros k t qs x I. apply stacked_In in I as (k0 & g0 & I & _ & Eo & _ & ->). cbn in Eo. split; [left; eauto|].
  apply ghz_In in I as [->|[->|(j & _ & [->| ->])]]; cbn in Eo; subst x; repeat constructor.
Qed.
Lemma ghz_pure n : 1 <= n -> op_pure (OCirc (stacked_after 0 (ghz_list n))) = Ok true.
Proof.
  intros L. destruct (ghz_shape n) as [W E]. apply (pure_all _ E). intros k t qs x I. apply stacked_In in I as (k0 & g0 & I & _ & Eo & _ & _). cbn in Eo.
  apply ghz_In in I as [->|[->|(j & _ & [->| ->])]]; cbn in Eo; subst x; reflexivity.
Qed.

Lemma ghz_value n va m : 1 <= n -> tensor_pure (OCirc (stacked_after 0 (ghz_list n))) = Ok va -> bits n m ->
  tval_value va m = if all_same m then cr (/ sqrt 2) else cr 0.
Proof.
  intros L Ev B. destruct (ghz_shape n) as [W E]. replace (max n 1) with n in E by lia.
  destruct (proj1 (conv_ok W) (ghz_pure L)) as (sa & Ea & v & Ev' & _ & _ & Va). rewrite E in Ea. injection Ea as <-.
  assert (X : Ok va = Ok v) by (rewrite <- Ev; exact Ev'). injection X as <-.
  destruct (prepared_counts (prepared_repeat n)) as [I O]. rewrite I, O, repeat_length in Va.
  rewrite <- (app_nil_r m), (Va m [] B) by (split; auto). rewrite app_nil_r. apply ghz_amp; auto.
Qed.

(** For every n >= 1 and every noise channel on one qubit: the number printed for b = add_noise(a, noise), a = GHZState(n), is the overlap of the
    density matrix of [b] with the GHZ state: half the sum of its four entries between 00...0 and 11...1. *)
Theorem C61_ghz (ord : list name -> list name) (memory : Z) (sp : ostep -> opath) (cost : tn (tval CK) -> Z) (n : nat) (nz : op CK) :
  (forall l, Permutation (ord l) l) -> good_paths sp -> (forall n, (cost n * 48 <= memory * 2 ^ 30)%Z) -> 1 <= n ->
  op_wf nz -> no_super nz -> plain_op nz -> op_shape nz = Ok [RW [LI; LO]] ->
  exists a b a' r v k t vb, ghz n = Ok a /\ add_noise a nz = Ok b /\ adj (OCirc a) = Ok a' /\ op_or (OCirc b) a' = Ok r /\
    tensor_density r = Ok v /\ (forall fuel, k <= fuel -> contract_val ord memory (finder sp cost) fuel v = Ok t) /\ nd_shape t = [] /\
    tensor_density (OCirc b) = Ok vb /\ tval_shape vb = twos (n + n) /\
    let rho x y := tval_value vb (repeat x n ++ repeat y n) in
    nd_at t [] = kmul (cr (/ 2)) (kadd (kadd (kadd (rho 0 0) (rho 0 1)) (rho 1 0)) (rho 1 1)).
Proof.
  intros Po Gp Mem L Wz Nz Pz Ez. destruct (ghz_shape n) as [W E]. pose proof (ghz_register n) as Rg. replace (max n 1) with n in * by lia.
  set (a := stacked_after 0 (ghz_list n)) in *.
  assert (Nu : forall k g, In (k, g) a -> numbered (g_op g)) by (intros k g I; exact (proj1 (@ghz_numbered n _ _ I))).
  destruct (hush_wf Wz Ez W E Nu) as [Wb _].
  assert (Ta : time_ordered a (in_order a)) by (split; [apply in_order_perm|apply in_order_sorted]).
  destruct (add_noise_dens Wz Ez W E Nu Ta Rg) as (sb & Eb & Ei & Eo & _).
  pose proof (hush_no_super Wz Ez W (ghz_no_super n) Nz E Nu) as Nb.
  assert (Pb : prepared sb).
  { assert (P0 := prepared_repeat n). clear -Ei Eo P0. revert sb Ei Eo P0. generalize (repeat (RW [LO]) n) as s. induction s as [|r s IH]; intros [|r' sb] Ei Eo P0; try discriminate; [constructor|].
    cbn [map] in Ei, Eo. injection Ei as I1 I2. injection Eo as O1 O2. inversion P0 as [|? ? [A B] C]; subst. constructor; [rewrite I1, O1; auto|]. apply IH; auto. }
  destruct (@C61_overlap CK ord memory sp cost (map (hush nz) a) a sb _ _ Po Gp Mem Wb Nb (hush_plain Wz Ez Pz W E Nu (ghz_plain n)) Eb Pb
    (hush_late nz W E Nu (ghz_plain n) (@ghz_late n)) (hush_register nz Rg) W (ghz_no_super n) (ghz_reversible n) (ghz_pure L) E (prepared_repeat n) Rg (@ghz_adj_plain n))
    as (a' & r & v & k & t & vb & va & Ad & Or & Ev & Ca & Evb & Eva & St & Vt).
  exists a, (map (hush nz) a), a', r, v, k, t, vb. split; [apply ghz_ok|]. split; [apply (add_noise_eq Wz Ez W E Nu)|]. do 6 (split; [assumption|]).
  destruct (prepared_counts Pb) as [Ib Ob]. assert (Lb : length sb = n) by (rewrite <- (map_length role_in sb), Ei, map_length, repeat_length; auto).
  destruct (dens_ok Wb Nb Eb) as (vb' & Evb' & _ & Sb & _). rewrite Evb in Evb'. injection Evb' as <-. rewrite Ib, Ob, Lb in Sb.
  split; [rewrite Sb; f_equal; lia|]. cbn zeta in Vt |- *. rewrite Vt.
  assert (Lq : length (range_names n) = n) by (unfold range_names; rewrite map_length, seq_length; auto). rewrite Lq.
  rewrite <- (@ghz_overlap n (fun m m' => tval_value vb (m ++ m')) L). cbn zeta.
  apply sumf_ext. intros m Im. apply sumf_ext. intros m' Im'. apply in_bits in Im, Im'. rewrite 2!(ghz_value L Eva) by assumption. reflexivity.
Qed.
Print Assumptions C61_ghz.

(** Without noise the number is 1: (a | a.adjoint()).tensor_density.contract() for a = GHZState(n). *)
Theorem C61_clean (ord : list name -> list name) (memory : Z) (sp : ostep -> opath) (cost : tn (tval CK) -> Z) (n : nat) :
  (forall l, Permutation (ord l) l) -> good_paths sp -> (forall n, (cost n * 48 <= memory * 2 ^ 30)%Z) -> 1 <= n ->
  exists a a' r v k t, ghz n = Ok a /\ adj (OCirc a) = Ok a' /\ op_or (OCirc a) a' = Ok r /\
    tensor_density r = Ok v /\ (forall fuel, k <= fuel -> contract_val ord memory (finder sp cost) fuel v = Ok t) /\ nd_shape t = [] /\
    nd_at t [] = cr 1.
Proof.
  intros Po Gp Mem L. destruct (ghz_shape n) as [W E]. pose proof (ghz_register n) as Rg. replace (max n 1) with n in * by lia.
  destruct (@C61_overlap CK ord memory sp cost _ _ _ _ _ Po Gp Mem W (ghz_no_super n) (ghz_plain n) E (prepared_repeat n) (@ghz_late n) Rg
    W (ghz_no_super n) (ghz_reversible n) (ghz_pure L) E (prepared_repeat n) Rg (@ghz_adj_plain n))
    as (a' & r & v & k & t & vb & va & Ad & Or & Ev & Ca & Evb & Eva & St & Vt).
  eexists _, a', r, v, k, t. split; [apply ghz_ok|]. do 5 (split; [assumption|]). cbn zeta in Vt. rewrite Vt.
  assert (Lq : length (range_names n) = n) by (unfold range_names; rewrite map_length, seq_length; auto). rewrite Lq.
  destruct (dens_ok W (ghz_no_super n) E) as (vb' & Evb' & _ & _ & Vb). rewrite Evb in Evb'. injection Evb' as <-.
  pose proof (dens_pure W (ghz_no_super n) (ghz_pure L) E) as Dp.
  destruct (prepared_counts (prepared_repeat n)) as [I0 O0]. rewrite I0, O0, repeat_length in Vb, Dp. assert (B0 : bits 0 []) by (split; auto).
  set (amp := fun m => if all_same m then cr (/ sqrt 2) else cr 0).
  assert (Rho : forall m m', bits n m -> bits n m' -> tval_value vb (m ++ m') = kmul (amp m) (amp m')).
  { intros m m' B B'. assert (E1 := Vb m [] m' [] B B0 B' B0). cbn [app] in E1. rewrite app_nil_r in E1. rewrite E1, Dp, !ghz_amp by auto.
    fold (amp m) (amp m'). unfold amp at 2. rewrite conj_ghz. reflexivity. }
  transitivity (sumf (fun m => sumf (fun m' => kmul (kmul (kconj (amp m)) (kmul (amp m) (amp m'))) (amp m')) (indices (repeat 2 n))) (indices (repeat 2 n))).
  - apply sumf_ext. intros m Im. apply sumf_ext. intros m' Im'. apply in_bits in Im, Im'. rewrite Rho, 2!(ghz_value L Eva) by assumption. reflexivity.
  - etransitivity; [exact (@ghz_overlap n (fun m m' => kmul (amp m) (amp m')) L)|]. cbn beta.
    assert (A : forall b, b < 2 -> amp (repeat b n) = cr (/ sqrt 2)).
    { intros b Hb. unfold amp. replace (all_same (repeat b n)) with true; auto. symmetry. unfold all_same. clear -Hb. destruct b as [|[|]]; [| |lia]; apply orb_true_iff; [left|right];
        apply forallb_forall; intros x I; apply repeat_spec in I; subst; reflexivity. }
    rewrite !A by lia. rewrite half. ck; field.
Qed.
Print Assumptions C61_clean.

(** Three qubits and depolarizing noise (the channel of the script) meet the hypotheses of [C61_ghz]; so do an order, a path optimiser and a cost. *)
Example C61_somewhere (p : R) : op_wf (Depolarization p None None) /\ no_super (Depolarization p None None) /\ plain_op (Depolarization p None None) /\
  op_shape (Depolarization p None None) = Ok [RW [LI; LO]] /\ good_paths std_sp /\ (1 * 48 <= 1024 * 2 ^ 30)%Z.
Proof.
  split; [apply channel_wf|]. split; [constructor|]. split; [repeat constructor|]. split; [reflexivity|]. split; [exact std_good|vm_compute; discriminate].
Qed.

(** A channel after a state, on the qubit 0: the hypotheses of [C61_or]. *)
Definition some_c : circ (op CK) := [(NT [NI 0; NT [NI 0]], Gate 0 [NI 0] (OState true))].
Definition some_d (p : R) : circ (op CK) := [(NS "d", Gate 0 [NI 0] (Depolarization p None None)); (NS "e", Gate 3 [NI 0] (Dephasing p))].
Example C61_or_somewhere (p : R) : op_wf (OCirc some_c) /\ op_wf (OCirc (some_d p)) /\ no_super (OCirc some_c) /\ no_super (OCirc (some_d p)) /\
  op_shape (OCirc some_c) = Ok [RW [LO]] /\ op_shape (OCirc (some_d p)) = Ok [RW [LI; LO]] /\ late_names_free some_c /\
  let gs := map (@gate_act CK) (in_order some_c) in
  let hs := map (@gate_act CK) (in_order (some_d p)) in
  (forall q, alternating (history (gs ++ hs) q)) /\ (forall q, ends_out (history gs q) = starts_in (history hs q)) /\
  (forall x y, acts_used (gs ++ hs) x -> acts_used (gs ++ hs) y -> x <> y -> exists r, name_lt x y = Ok r).
Proof.
  split; [|split; [|split; [|split]]].
  - constructor; [apply nodupb_NoDup; reflexivity| |]; intros k g [E|[]]; injection E as <- <-; [constructor|]. split; [repeat constructor; simpl; tauto|reflexivity].
  - constructor; [apply nodupb_NoDup; reflexivity| |]; intros k g [E|[E|[]]]; injection E as <- <-; try apply channel_wf; (split; [repeat constructor; simpl; tauto|reflexivity]).
  - constructor. intros k g [E|[]]; injection E as <- <-; constructor.
  - constructor. intros k g [E|[E|[]]]; injection E as <- <-; constructor.
  - split; [reflexivity|]. split; [reflexivity|]. split; [|split; [|split]].
    + intros t qs L [E|[]]. injection E as E _. change (max_time some_c) with 0%Z in L. lia.
    + intros q. unfold history. simpl. unfold word_at. simpl. destruct (eqb_spec q (NI 0)) as [->|]; [vm_compute; intuition discriminate|simpl; auto].
    + intros q. unfold history. simpl. unfold word_at. simpl. destruct (eqb_spec q (NI 0)) as [->|]; reflexivity.
    + intros x y (g & Ig & Ix) (h & Ih & Iy) N. exfalso. apply N. assert (X : forall g z, In g (map (@gate_act CK) (in_order some_c) ++ map (@gate_act CK) (in_order (some_d p))) -> In z (on g) -> z = NI 0).
      { intros g0 z [<-|[<-|[<-|[]]]] [<-|[]]; reflexivity. }
      rewrite (X _ _ Ig Ix), (X _ _ Ih Iy). reflexivity.
Qed.
