(** Circuits as they are built and used. *)
From Coq Require Import Sorting.Permutation Sorting.Sorted.
From Verif Require Import Base Scalar NetSpec Sums NetAlg ModelArray ModelTN TNInv TNOps TNSpec TNValue TNExact TNEdit
  TNEdit2 ModelVal ModelOps OpsSpec OpsProofs OpsValue ModelContract ContractExec NameOrder CircSpec CircSum CircOrder
  ModelCircuit CircSem CircShape CircWire CircStep CircNet CircCtrl CircWhen CircOp CircMain CircBuild CircAdj.
Set Implicit Arguments.

Section Use.
  Variable S : scalar.
  Notation tval := (tval S).
  Notation op := (op S).
  Implicit Types c l : circ op.

  Lemma appends_app (l m : list (call S)) c : appends (l ++ m) c = do c <- appends l c; appends m c.
  Proof. revert c. induction l as [|x l IH]; intros c; simpl; auto. destruct (c_append _ _ _ _ c); simpl; auto. Qed.
  Lemma next_max c : next_time c (1 + max_time c).
  Proof.
    destruct c as [|p c]; [left; auto|]. right.
    assert (H : exists q, In q (p :: c) /\ max_time (p :: c) = g_time (snd q)).
    { simpl. assert (G : forall l m, fold_left (fun (m : Z) (q : name * gate op) => Z.max m (g_time (snd q))) l m = m \/
                 exists q, In q l /\ fold_left (fun (m : Z) (q : name * gate op) => Z.max m (g_time (snd q))) l m = g_time (snd q)).
      { induction l as [|a l IH]; intros m; simpl; auto. destruct (IH (Z.max m (g_time (snd a)))) as [E|(q & I & E)].
        - rewrite E. destruct (Z.max_spec m (g_time (snd a))) as [[_ ->]|[_ ->]]; auto. right. exists a; auto.
        - right. exists q; auto. }
      destruct (G c (g_time (snd p))) as [E|(q & I & E)]; [exists p|exists q]; auto. }
    destruct H as (q & I & E). exists q. split; auto. split; [lia|]. intros r Ir. rewrite <- E. apply max_time_le; auto.
  Qed.
  Lemma next_unique c t : next_time c t -> t = (1 + max_time c)%Z.
  Proof.
    intros [(-> & ->)|(p & I & -> & H)]; [reflexivity|]. f_equal.
    destruct (next_max c) as [(-> & _)|(q & Iq & E & Hq)]; [destruct I|]. specialize (H q Iq). specialize (Hq p I). lia.
  Qed.
  Lemma placed_keep (l : list (call S)) c c' : placed l c -> NoDup (keys c) -> appends l [] = Ok c' -> c' = c.
  Proof.
    intros P. revert c'. induction P as [|l c x t k P IH Ht Hk]; intros c' N E; [inversion E; auto|].
    rewrite appends_app in E. destruct (appends l []) as [d|] eqn:Ed; simpl in E; [|discriminate].
    unfold keys in N. rewrite map_app in N.
    assert (d = c) as -> by (apply IH; auto; apply NoDup_remove_1 in N; rewrite app_nil_r in N; auto).
    destruct (c_append _ _ _ _ c) as [e|] eqn:Ea; simpl in E; [|discriminate]. inversion E; subst e.
    apply c_append_ok in Ea as (_ & _ & ->).
    assert (Es : slot (c_time x) c = t) by (destruct Ht as [->|[-> H]]; simpl; auto; symmetry; apply next_unique; auto).
    rewrite Es. assert (El : label (c_name x) t (c_qubits x) = k) by (destruct Hk as [->|[-> ->]]; auto).
    rewrite El. apply set_fresh. intros I. apply NoDup_remove_2 in N. rewrite app_nil_r in N. auto.
  Qed.
  Lemma placed_exists (l : list (call S)) : exists c, placed l c.
  Proof.
    induction l as [|x l IH] using rev_ind; [exists []; constructor|]. destruct IH as (c & P).
    set (t := slot (c_time x) c). exists (c ++ [(label (c_name x) t (c_qubits x), Gate t (c_qubits x) (c_op x))]).
    constructor; auto.
    - unfold t, slot. destruct (c_time x); auto. right. split; auto. apply next_max.
    - unfold label. destruct (c_name x); auto.
  Qed.
  Lemma placed_accepts (l : list (call S)) c : placed l c -> NoDup (keys c) ->
    (forall x, In x l -> NoDup (c_qubits x) /\ op_len (c_op x) = Ok (length (c_qubits x))) -> appends l [] = Ok c.
  Proof.
    intros P N H. destruct (appends l []) as [c'|e] eqn:E; [f_equal; eapply placed_keep; eauto|].
    exfalso. clear N P c. assert (G : forall (l : list (call S)) (c : circ op), (forall x, In x l -> NoDup (c_qubits x) /\ op_len (c_op x) = Ok (length (c_qubits x))) ->
      exists c', appends l c = Ok c').
    { clear. induction l as [|x l IH]; intros c H; simpl; eauto.
      destruct (H x) as [Nq L]; [simpl; auto|].
      assert (Ea := proj2 (@c_append_ok S (c_op x) (c_qubits x) (c_time x) (c_name x) c _) (conj Nq (conj L eq_refl))).
      rewrite Ea. cbn [bind]. apply IH. intros y I. apply H; simpl; auto. }
    destruct (G l [] H) as (c' & E'). congruence.
  Qed.
  Lemma appends_wf (l : list (call S)) : forall c c', op_wf (OCirc c) -> (forall x, In x l -> op_wf (c_op x)) -> appends l c = Ok c' -> op_wf (OCirc c').
  Proof.
    induction l as [|x l IH]; intros c c' W H E; simpl in E; [inversion E; subst; auto|].
    destruct (c_append _ _ _ _ c) as [d|] eqn:Ea; simpl in E; [|discriminate].
    eapply IH; [|intros y I; apply H; simpl; auto|exact E]. apply (@append_wf S (c_op x) _ _ _ c d W (H x (or_introl eq_refl)) Ea).
  Qed.

  (** ** registers *)
  Lemma used_In c q : used c q <-> In q (qubits_of c).
  Proof.
    rewrite qubits_In. split.
    - intros (k & g & I & J). exists (k, g); auto.
    - intros ([k g] & I & J). exists k, g; auto.
  Qed.
  Lemma all_qubits_register c Q : all_qubits c = Ok Q -> register c Q.
  Proof.
    intros E. destruct (all_qubits_spec _ E) as (N & SQ & IQ). split; auto. intros q. rewrite IQ. symmetry. apply used_In.
  Qed.
  Lemma register_unique c (d : circ op) Q R : (forall q, used c q <-> used d q) -> register c Q -> register d R -> Q = R.
  Proof.
    intros H [I1 S1] [I2 S2].
    assert (ND : forall l : list name, StronglySorted (below name_lt) l -> NoDup l).
    { induction 1 as [|x l SS IH F]; constructor; auto. intros I. eapply Forall_forall in F; eauto. exact (name_lt_irrefl _ F). }
    eapply (@sorted_unique name_lt (fun _ => True)); eauto using Forall_T, name_lt_irrefl, name_lt_trans, name_lt_flip.
    apply NoDup_Permutation; auto. intros q. rewrite I1, I2. auto.
  Qed.
  Lemma register_exists c : names_compare c -> exists Q, all_qubits c = Ok Q.
  Proof.
    intros H. unfold all_qubits. apply sort_by_total; rewrite app_nil_r.
    - intros x y Ix Iy. apply H; apply used_In, dedup_In; auto.
    - apply dedup_NoDup.
  Qed.
  Lemma once_apart c : once_at_a_time c <-> apart_ok (map_circ (@spec_of S) c).
  Proof.
    unfold once_at_a_time, apart_ok. induction c as [|p c IH]; simpl; split; intros O; try constructor; inversion O as [|? ? H1 H2]; subst; try tauto.
    - unfold tacts, map_circ. apply Forall_map, Forall_map. eapply Forall_impl; [|exact H1]. intros q Hq. unfold same_time_apart, apart. simpl.
      intros E x Ix Jx. apply (Hq E x); auto.
    - unfold tacts, map_circ in H1. rewrite !Forall_map in H1. eapply Forall_impl; [|exact H1]. intros q Hq. unfold same_time_apart, apart in Hq. simpl in Hq.
      intros E x Ix Jx. apply (Hq E x); auto.
  Qed.

  (** ** the operands of | on a larger register *)
  Lemma sorted_filter_eq (p : name -> bool) (Q R : list name) :
    StronglySorted (below name_lt) Q -> StronglySorted (below name_lt) R ->
    (forall q, p q = true -> (In q Q <-> In q R)) -> filter p Q = filter p R.
  Proof.
    intros SQ SR H.
    assert (ND : forall l : list name, StronglySorted (below name_lt) l -> NoDup l).
    { induction 1 as [|x l SS IH F]; constructor; auto. intros I. eapply Forall_forall in F; eauto. exact (name_lt_irrefl _ F). }
    assert (SF : forall l : list name, StronglySorted (below name_lt) l -> StronglySorted (below name_lt) (filter p l)).
    { induction 1 as [|x l SS IH F]; simpl; [constructor|]. destruct (p x); auto. constructor; auto.
      apply Forall_forall. intros y I. apply filter_In in I as [I _]. eapply Forall_forall in F; eauto. }
    eapply (@sorted_unique name_lt (fun _ => True)); eauto using Forall_T, name_lt_irrefl, name_lt_trans, name_lt_flip.
    apply NoDup_Permutation; try (apply NoDup_filter, ND; auto). intros q. rewrite !filter_In. split; intros [I P]; split; auto; apply (H q P); auto.
  Qed.
  Definition part (a : op) (gs : list (act S)) : Prop := gs = [whole a] \/ exists c, a = OCirc c /\ gs = map (@gate_act S) (in_order c).
  Lemma part_ok (a : op) sa gs Q : part a gs -> op_wf a -> op_shape a = Ok sa -> NoDup Q -> StronglySorted (below name_lt) Q ->
    (forall g, In g gs -> incl (on g) Q) ->
    length (wires_out Q gs) = count role_out sa /\ length (wires_in Q gs) = count role_in sa /\
    (forall g, In g gs -> act_ok Q g) /\
    forall o i, bits (count role_out sa) o -> bits (count role_in sa) i -> amplitude Q gs o i = op_amp a o i.
  Proof.
    intros P W E NQ SQ I.
    assert (Wh : gs = [whole a] -> length (wires_out Q gs) = count role_out sa /\ length (wires_in Q gs) = count role_in sa /\
      (forall g, In g gs -> act_ok Q g) /\
      forall o i, bits (count role_out sa) o -> bits (count role_in sa) i -> amplitude Q gs o i = op_amp a o i).
    { intros ->. assert (Iw : incl (on (whole a)) Q) by (apply I; simpl; auto).
      assert (Nw : NoDup (on (whole a))) by apply range_NoDup.
      assert (Sw : StronglySorted (below name_lt) (on (whole a))) by apply range_sorted.
      assert (Ew : whole a = Act (range_names (length sa)) (map role_word sa) (op_amp a)).
      { unfold whole, gate_act, gact. simpl. rewrite (shape_or_eq _ E). auto. }
      assert (Wo : wires_out Q [whole a] = act_outs (whole a)).
      { unfold wires_out, act_outs. rewrite (filter_ext _ (fun q => ends_out (word_at (whole a) q))) by (intros q; rewrite history_one; auto).
        apply sorted_filter_eq; auto. intros q Pq. split; auto. intros _. apply word_at_on. intros Z. rewrite Z in Pq. discriminate. }
      assert (Wi : wires_in Q [whole a] = act_ins (whole a)).
      { unfold wires_in, act_ins. rewrite (filter_ext _ (fun q => starts_in (word_at (whole a) q))) by (intros q; rewrite history_one; auto).
        apply sorted_filter_eq; auto. intros q Pq. split; auto. intros _. apply word_at_on. intros Z. rewrite Z in Pq. discriminate. }
      assert (Lo : length (act_outs (whole a)) = count role_out sa).
      { rewrite Ew. apply act_outs_count; [apply range_NoDup|apply range_length]. }
      assert (Li : length (act_ins (whole a)) = count role_in sa).
      { rewrite Ew. apply act_ins_count; [apply range_NoDup|apply range_length]. }
      rewrite Wo, Wi. split; auto. split; auto. split; [intros g [<-|[]]; split; auto|].
      intros o i Bo Bi. rewrite amplitude_single; auto; rewrite ?Lo, ?Li; auto. }
    destruct P as [P|(c & -> & ->)]; [auto|]. clear Wh.
    inversion W as [| | | | | |? Nk Wk G|]; subst. assert (G' : gates_ok c) by exact G.
    destruct (any_order G' E (in_order_perm c) (@in_order_sorted _ c)) as (R & AR & Al & Co & Ci & Esh & Am).
    destruct (all_qubits_spec _ AR) as (NR & SR & IR).
    set (gs := map (@gate_act S) (in_order c)) in *.
    assert (Hon : forall g q, In g gs -> In q (on g) -> In q R).
    { intros g q Ig Iq. unfold gs in Ig. apply in_map_iff in Ig as ([k g0] & <- & I0). apply IR, qubits_In.
      exists (k, g0). split; [eapply Permutation_in; [symmetry; apply in_order_perm|auto]|exact Iq]. }
    assert (Hno : forall g, In g gs -> NoDup (on g)).
    { intros g Ig. unfold gs in Ig. apply in_map_iff in Ig as ([k g0] & <- & I0). apply (gates_order G' k g0 I0). }
    assert (Hh : forall q, history gs q <> [] -> exists g, In g gs /\ In q (on g)).
    { intros q. unfold history. generalize gs. induction gs0 as [|g l IH]; simpl; [congruence|]. intros Z.
      destruct (word_at g q) eqn:Ew; [|exists g; split; auto; apply word_at_on; congruence].
      simpl in Z. destruct (IH Z) as (g' & I' & J). exists g'; auto. }
    assert (Hin : forall q, history gs q <> [] -> (In q Q <-> In q R)).
    { intros q Z. destruct (Hh q Z) as (g & Ig & Jg). split; intros _; [eapply Hon; eauto|apply (I g Ig); auto]. }
    assert (Wo : wires_out Q gs = wires_out R gs).
    { unfold wires_out. apply sorted_filter_eq; auto. intros q Pq. apply Hin. intros Z. rewrite Z in Pq. discriminate. }
    assert (Wi : wires_in Q gs = wires_in R gs).
    { unfold wires_in. apply sorted_filter_eq; auto. intros q Pq. apply Hin. intros Z. rewrite Z in Pq. discriminate. }
    assert (Ok1 : forall g, In g gs -> act_ok Q g) by (intros g Ig; split; auto).
    rewrite Wo, Wi, Co, Ci. split; auto. split; auto. split; auto. intros o i Bo Bi.
    rewrite Am by (rewrite Co; auto). apply amplitude_register; auto; [|rewrite Wo; auto|rewrite Wi; auto].
    intros g Ig. split; auto. split; auto. intros q Iq. eapply Hon; eauto.
  Qed.
  Lemma first_is_part (a : op) : part a (first_part a).
  Proof. destruct a; try (left; reflexivity). right. eauto. Qed.
  Lemma second_is_part (a b : op) : part b (second_part a b).
  Proof. destruct a; try (left; reflexivity). destruct b; try (left; reflexivity). right. eauto. Qed.

  (** ** a | b *)
  Definition acts_used (gs : list (act S)) (q : name) : Prop := exists g, In g gs /\ In q (on g).
  Lemma or_ok (a b : op) sa sb : op_wf a -> op_wf b -> op_shape a = Ok sa -> op_shape b = Ok sb ->
    op_pure a = Ok true -> op_pure b = Ok true -> left_free a ->
    let gs := first_part a ++ second_part a b in
    (forall q, alternating (history gs q)) ->
    (forall x y, acts_used gs x -> acts_used gs y -> x <> y -> exists r, name_lt x y = Ok r) ->
    exists r sh Q, op_or a b = Ok r /\ op_wf r /\ op_pure r = Ok true /\ op_shape r = Ok sh /\
      (forall q, In q Q <-> acts_used gs q) /\ StronglySorted (below name_lt) Q /\ NoDup Q /\
      count role_out sh = length (wires_out Q gs) /\ count role_in sh = length (wires_in Q gs) /\
      tensor_ok (tensor_pure r) sh (amplitude Q gs).
  Proof.
    intros Wa Wb Ea Eb Pa Pb Fr gs Al Cmp.
    destruct (or_eq Wa Wb Ea Eb Fr) as (c & l & E & Nk & Lf & Gc & Gl & Wf & Ap & Eg).
    set (d := c ++ stacked_after (1 + max_time c) l) in *.
    assert (Gd : gates_ok d) by (apply gates_app; auto; apply gates_stacked; auto).
    assert (Wd : forall k g, In (k, g) d -> op_wf (g_op g) /\ op_pure (g_op g) = Ok true).
    { intros k g I. unfold d in I. apply in_app_iff in I as [I|I].
      - destruct (Wf k g) as [H1 H2]; auto.
      - apply stacked_In in I as (k0 & g0 & I & _ & -> & _). destruct (Wf k0 g0) as [H1 H2]; auto. }
    assert (W : op_wf (OCirc d)).
    { constructor; auto; [apply keys_join; auto|]. intros k g I. apply (Wd k g I). }
    set (m := in_order c ++ stacked_after (1 + max_time c) l).
    assert (Eg' : map (@gate_act S) m = gs) by (unfold m; rewrite join_acts; auto).
    assert (Hu : forall q, used d q <-> acts_used gs q).
    { intros q. rewrite <- Eg'. unfold acts_used, used. split.
      - intros (k & g & I & J). exists (gate_act (k, g)). split; [apply in_map|exact J].
        eapply Permutation_in; [apply join_perm|exact I].
      - intros (g & I & J). apply in_map_iff in I as ([k g0] & <- & I). exists k, g0. split; [|exact J].
        eapply Permutation_in; [apply Permutation_sym, join_perm|exact I]. }
    destruct (@register_exists d) as (Q & AQ).
    { intros x y Ux Uy N. apply Cmp; auto; apply Hu; auto. }
    destruct (@shape_exists S d m Q Gd) as (sh & Es); auto; [apply join_apart; auto|apply join_perm|apply join_sorted|rewrite Eg'; auto|].
    assert (Pd : op_pure (OCirc d) = Ok true) by (eapply pure_circ_rev; eauto; intros k g I; apply (Wd k g I)).
    destruct (@any_order S d sh m Gd Es) as (Q' & AQ' & _ & Co & Ci & _ & Am); [apply join_perm|apply join_sorted|].
    rewrite AQ in AQ'. inversion AQ'; subst Q'. rewrite Eg' in Co, Ci, Am.
    destruct (all_qubits_register _ AQ) as [IQ SQ]. destruct (all_qubits_spec _ AQ) as (NQ & _).
    exists (OCirc d), sh, Q. split; auto. split; auto. split; auto. split; auto.
    split; [intros q; rewrite IQ; apply Hu|]. split; auto. split; auto. split; auto. split; auto.
    destruct (conv_ok W) as [Hc _]. destruct (Hc Pd) as (sh' & Es' & v & Ev & Cv & Sv & Vv).
    rewrite Es in Es'. inversion Es'; subst sh'. exists v. split; auto. split; auto. split; auto.
    intros o i Bo Bi. rewrite Vv by auto. apply Am; auto.
  Qed.
  Lemma or_product (a b : op) sa sb gs hs Q : op_wf a -> op_wf b -> op_shape a = Ok sa -> op_shape b = Ok sb ->
    part a gs -> part b hs -> NoDup Q -> StronglySorted (below name_lt) Q -> (forall g, In g (gs ++ hs) -> incl (on g) Q) ->
    (forall q, alternating (history (gs ++ hs) q)) -> wires_out Q gs = wires_in Q hs ->
    length (wires_out Q (gs ++ hs)) = count role_out sb /\ length (wires_in Q (gs ++ hs)) = count role_in sa /\
    forall o i, bits (count role_out sb) o -> bits (count role_in sa) i ->
    amplitude Q (gs ++ hs) o i = sumf (fun m => kmul (op_amp b o m) (op_amp a m i)) (indices (repeat 2%nat (count role_out sa))).
  Proof.
    intros Wa Wb Ea Eb Pa Pb NQ SQ I Al Ew.
    destruct (part_ok Pa Wa Ea NQ SQ) as (Ao & Ai & Aa & Am); [intros g Ig; apply I, in_app_iff; auto|].
    destruct (part_ok Pb Wb Eb NQ SQ) as (Bo & Bi & Ba & Bm); [intros g Ig; apply I, in_app_iff; auto|].
    assert (OkA : forall g, In g (gs ++ hs) -> act_ok Q g) by (intros g Ig; apply in_app_iff in Ig as [Ig|Ig]; auto).
    assert (K : forall o i, bits (count role_out sb) o -> bits (count role_in sa) i ->
      wires_in Q (gs ++ hs) = wires_in Q gs /\ wires_out Q (gs ++ hs) = wires_out Q hs /\
      amplitude Q (gs ++ hs) o i = sumf (fun m => kmul (op_amp b o m) (op_amp a m i)) (indices (repeat 2%nat (count role_out sa)))).
    { intros o i Ho Hi. destruct (@amplitude_compose S Q gs hs o i NQ OkA Al Ew) as (E1 & E2 & E3);
        [rewrite Bo; auto|rewrite Ai; auto|]. split; auto. split; auto. rewrite E3, Ao. apply sumf_ext. intros m Im.
      apply in_bits in Im. rewrite Am, Bm; auto. rewrite <- Bi, <- Ew, Ao. auto. }
    assert (Bz : forall n, bits n (repeat 0%nat n)).
    { intros n. split; [apply repeat_length|]. apply Forall_forall. intros b0 Ib. apply repeat_spec in Ib. lia. }
    destruct (K _ _ (Bz _) (Bz _)) as (E1 & E2 & _). rewrite E1, E2. split; auto. split; auto. intros o i Ho Hi. apply K; auto.
  Qed.

  (** ** controls *)
  Lemma stacked_shape cond sh (d : tval) : forallb role_unitary sh = true ->
    tval_shape (stacked cond sh d) = twos (count is_ctrl (RC :: sh) + count is_in (RC :: sh) + count is_out (RC :: sh)).
  Proof.
    intros U.
    assert (Co : count role_out sh = length sh) by (apply unitary_all; auto using unitary_out).
    assert (Ci : count role_in sh = length sh) by (apply unitary_all; auto using unitary_in).
    pose proof (count_out sh) as Lo. pose proof (count_in sh) as Li.
    unfold stacked. cbn [tval_shape]. rewrite twos_dims.
    replace (count is_ctrl (RC :: sh)) with (1 + count is_ctrl sh)%nat by reflexivity.
    replace (count is_in (RC :: sh)) with (count is_in sh) by reflexivity.
    replace (count is_out (RC :: sh)) with (count is_out sh) by reflexivity.
    cbn [nd_shape].
    replace (1 + count is_ctrl sh + 2 * (length sh - count is_ctrl sh))%nat
      with (1 + count is_ctrl sh + count is_in sh + count is_out sh)%nat by lia. reflexivity.
  Qed.
  Theorem controlled_ok (cond : bool) (o : op) sh : op_wf o -> controllable o -> op_pure o = Ok true -> op_shape o = Ok sh ->
    exists o', controlled cond o = Ok o' /\ op_wf o' /\ op_pure o' = Ok true /\ op_shape o' = Ok (RC :: sh) /\
      tensor_ok (tensor_pure o') (RC :: sh) (when_amp cond (op_amp o)) /\
      ((forall c, o <> OCirc c) -> controllable o').
  Proof.
    intros W C P E. destruct (conv_ok W) as [Hp Hc]. specialize (Hc C P cond sh E).
    destruct (controllable_shape C) as (sh' & E' & U). rewrite E in E'. inversion E'; subst sh'. clear E'.
    assert (M : may_control (op_pure o) (op_shape o) = Ok tt) by (rewrite P, E; simpl; rewrite U; auto).
    assert (Mk : forall d : tval, mk_ctrl false (RC :: sh) (stacked cond sh d) = Ok (OCtrl false (RC :: sh) (stacked cond sh d))).
    { intros d. unfold mk_ctrl, shape_is. rewrite (stacked_shape cond sh d U), eqb_refl. auto. }
    assert (Ctl : forall d, (controlled cond o = do _ <- may_control (op_pure o) (op_shape o); do d <- tensor_control o; do sh <- op_shape o;
           mk_ctrl false (RC :: sh) (stacked cond sh d)) -> tensor_control o = Ok d ->
           conv o (Some cond) = ctrl_net (RC :: sh) (stacked cond sh d) ->
      exists o', controlled cond o = Ok o' /\ op_wf o' /\ op_pure o' = Ok true /\ op_shape o' = Ok (RC :: sh) /\
      tensor_ok (tensor_pure o') (RC :: sh) (when_amp cond (op_amp o)) /\ ((forall c, o <> OCirc c) -> controllable o')).
    { intros d E1 E2 E3. exists (OCtrl false (RC :: sh) (stacked cond sh d)). split.
      - rewrite E1, M. cbn [bind]. rewrite E2. cbn [bind]. rewrite E. cbn [bind]. apply Mk.
      - split; [constructor; [constructor|apply stacked_shape; auto]|]. split; auto. split; auto.
        split; [|intros _; constructor; simpl; auto]. unfold tensor_pure. cbn [conv]. rewrite <- E3. exact Hc. }
    destruct C as [sa s d U'|sa s d U'|l s Es U'|c s Ne Srt Es U' Cg].
    - simpl in E. inversion E; subst s. apply (Ctl d); auto. simpl. rewrite U. auto.
    - simpl in E. inversion E; subst s. apply (Ctl d); auto. simpl. rewrite U. auto.
    - destruct (Hp P) as (s' & E' & v & Ev & _). apply (Ctl v); auto.
      change (conv (OSuper l) (Some cond)) with
          (do _ <- may_control (op_pure (OSuper l)) (op_shape (OSuper l)); do v <- conv (OSuper l) None;
           do sh <- op_shape (OSuper l); ctrl_net (RC :: sh) (stacked cond sh v)).
      rewrite M, Ev, E. reflexivity.
    - exists (OCCirc cond c). split; [unfold controlled, controlled_circuit; rewrite M; auto|].
      split; [constructor; auto; econstructor; eauto|]. split; auto. split; [|split; [|intros H; destruct (H c); auto]].
      + change (op_shape (OCCirc cond c)) with (do sh <- op_shape (OCirc c); Ok (RC :: sh)). rewrite E. auto.
      + unfold tensor_pure. rewrite conv_ccirc. rewrite conv_circ_ctl, M in Hc. exact Hc.
  Qed.
End Use.
