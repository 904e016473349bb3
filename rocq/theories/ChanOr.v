(** a | b for circuits with channels: the composition of the two channels. *)
From Coq Require Import Sorting.Permutation Sorting.Sorted.
From Verif Require Import Base Scalar NetSpec Sums NetAlg ModelArray ModelTN TNSpec ModelVal ModelOps OpsSpec ModelContract NameOrder CircSpec CircSum CircOrder ModelCircuit CircSem CircShape
  OpsProofs OpsValue CircCtrl CircMain CircBuild CircUse DensSpec CircDens CircDensNet CircDensOp CircPure ChanCirc ChanTrace CircFlat FlatSpec CircNest CircNest2 CircNest3 ModelNoise NoisySpec NoiseAdd NoiseAdd4 MatSpec.
Set Implicit Arguments.

Section Or.
  Variable S : scalar.
  Notation op := (op S).
  Local Open Scope K_scope.
  Add Ring Kring_or : (kring S).

  Lemma dbl_alt (gs : list (cact S)) : Forall (@fits S) gs -> (forall q, alternating (history (map (@skel S) gs) q)) ->
    forall q, alternating (history (map (@dbl S) gs) q).
  Proof.
    intros F H q. destruct (history (map (@dbl S) gs) q) eqn:E; [exact I|]. rewrite <- E.
    assert (X : exists r, q = ket r \/ q = bra r).
    { assert (Z : history (map (@dbl S) gs) q <> []) by congruence. clear -Z. unfold history in Z. induction gs as [|g gs IH]; [simpl in Z; congruence|].
      cbn [map concat] in Z. destruct (word_at (dbl g) q) eqn:Ew; [apply IH; exact Z|].
      assert (J : In q (on (dbl g))) by (apply word_at_on; congruence). cbn [dbl on] in J. apply both_In in J as (r & _ & J). eauto. }
    destruct X as [r [-> | ->]]; [rewrite history_ket|rewrite history_bra]; auto.
  Qed.
  Lemma xc_fits (c : circ op) : gates_ok c -> Forall (@fits S) (map (@xc S) c).
  Proof.
    intros G. rewrite Forall_map. apply Forall_forall. intros [k g] I. destruct (G k g I) as [_ L]. apply op_len_shape in L as [_ L].
    unfold fits. cbn. rewrite map_length. auto.
  Qed.
  Lemma xc_acts Q (c : circ op) : gates_ok c -> (forall p, In p c -> incl (g_qubits (snd p)) Q) ->
    forall g, In g (map (@dbl S) (map (@xc S) c)) -> act_ok (both Q) g.
  Proof.
    intros G H g I. rewrite map_map in I. apply in_map_iff in I as ([k x] & <- & I). destruct (G k x I) as [N _]. split.
    - cbn [dbl on xc c_on snd]. apply both_NoDup; auto.
    - cbn [dbl on xc c_on snd]. apply both_incl. apply (H _ I).
  Qed.
  (** the density of a circuit on a larger register *)
  Lemma dens_larger (c gates : circ op) sh Q : gates_ok c -> op_shape (OCirc c) = Ok sh -> time_ordered c gates -> NoDup Q -> StronglySorted (below name_lt) Q ->
    (forall q, used c q -> In q Q) ->
    length (wires_out Q (map (@gate_act S) gates)) = count role_out sh /\ length (wires_in Q (map (@gate_act S) gates)) = count role_in sh /\
    forall o i o' i', bits (count role_out sh) o -> bits (count role_in sh) i -> bits (count role_out sh) o' -> bits (count role_in sh) i' ->
      op_dens (OCirc c) o i o' i' = channel Q (map (@xc S) gates) o i o' i'.
  Proof.
    intros G Es T NQ SQ Inc. destruct (circ_facts G Es) as (R & AR & _). pose proof (all_qubits_register _ AR) as Rg.
    destruct (circ_known G Es T Rg) as (NR & Lsh & Fit & Al & Esh & Ip & Co & _).
    destruct Rg as [IR SR].
    assert (Gg : gates_ok gates) by (intros k g I; apply (G k g); auto).
    assert (Hq : forall p q, In p gates -> In q (g_qubits (snd p)) -> In q R).
    { intros [k g] q I J. apply IR. exists k, g. auto. }
    assert (Hh : forall q, history (map (@gate_act S) gates) q <> [] -> In q R).
    { intros q. assert (Hq' := Hq). clear -Hq'. unfold history. induction gates as [|p l IH]; simpl; [congruence|]. intros Z.
      destruct (word_at (gate_act p) q) eqn:Ew.
      - apply IH; auto. intros p' q' I. apply Hq'. simpl; auto.
      - apply (Hq' p); [simpl; auto|]. assert (J : In q (on (gate_act p))) by (apply word_at_on; congruence). exact J. }
    assert (Hin : forall q, history (map (@gate_act S) gates) q <> [] -> (In q Q <-> In q R)).
    { intros q Z. split; auto. intros J. apply Inc, IR; auto. }
    assert (Wo : wires_out Q (map (@gate_act S) gates) = wires_out R (map (@gate_act S) gates)).
    { unfold wires_out. apply sorted_filter_eq; auto. intros q Pq. apply Hin. intros Z. rewrite Z in Pq. discriminate. }
    assert (Wi : wires_in Q (map (@gate_act S) gates) = wires_in R (map (@gate_act S) gates)).
    { unfold wires_in. apply sorted_filter_eq; auto. intros q Pq. apply Hin. intros Z. rewrite Z in Pq. discriminate. }
    assert (Ci : count role_in sh = length (wires_in R (map (@gate_act S) gates))).
    { destruct T as [P So]. destruct (any_order G Es P So) as (R' & AR' & _ & _ & Ci & _). rewrite AR in AR'. injection AR' as <-. exact Ci. }
    rewrite Wo, Wi, <- Co, <- Ci. split; auto. split; auto. intros o i o' i' Bo Bi Bo' Bi'.
    rewrite (dens_order G Es T (conj IR SR)) by auto. unfold channel.
    assert (Ft := xc_fits Gg).
    assert (So : forall P : list name, wires_out P (map (@skel S) (map (@xc S) gates)) = wires_out P (map (@gate_act S) gates)).
    { intros P. apply filter_ext. intros q. rewrite xc_words; auto. }
    assert (Si : forall P : list name, wires_in P (map (@skel S) (map (@xc S) gates)) = wires_in P (map (@gate_act S) gates)).
    { intros P. apply filter_ext. intros q. rewrite xc_words; auto. }
    apply amplitude_register.
    - apply both_NoDup; auto.
    - apply both_NoDup; auto.
    - intros g I. split; eapply xc_acts; eauto; intros p Jp q Jq; [eauto|]. apply Inc, IR. eauto.
    - apply dbl_alt; auto. intros q. rewrite xc_words. auto.
    - rewrite !dbl_wires_in, !Si, Wi by auto. auto.
    - rewrite !dbl_wires_out, !So, Wo by auto. auto.
    - rewrite dbl_wires_out, So, <- Wo by auto. rewrite Wo. unfold both. rewrite app_length, !map_length, <- Co. apply bits_app; auto.
    - rewrite dbl_wires_in, Si by auto. unfold both. rewrite app_length, !map_length, <- Ci. apply bits_app; auto.
  Qed.

  Lemma indices_split n m (f : list nat -> S) :
    sumf f (indices (repeat 2%nat (n + m))) = sumf (fun x => sumf (fun y => f (x ++ y)) (indices (repeat 2%nat m))) (indices (repeat 2%nat n)).
  Proof.
    revert f. induction n as [|n IH]; intros f; cbn [Nat.add repeat indices].
    - cbn [sumf app]. symmetry. apply kadd_0_r.
    - rewrite !sumf_flat_map. apply sumf_ext. intros b _. rewrite !sumf_map. rewrite IH. apply sumf_ext. intros x _. reflexivity.
  Qed.

  Theorem or_density (c d : circ op) sc sd : op_wf (OCirc c) -> op_wf (OCirc d) -> no_super (OCirc c) -> no_super (OCirc d) ->
    op_shape (OCirc c) = Ok sc -> op_shape (OCirc d) = Ok sd -> late_names_free c ->
    let gs := map (@gate_act S) (in_order c) in
    let hs := map (@gate_act S) (in_order d) in
    (forall q, alternating (history (gs ++ hs) q)) ->
    (forall q, ends_out (history gs q) = starts_in (history hs q)) ->
    (forall x y, acts_used (gs ++ hs) x -> acts_used (gs ++ hs) y -> x <> y -> exists r, name_lt x y = Ok r) ->
    let e := c ++ stacked_after (1 + max_time c) (in_order d) in
    op_or (OCirc c) (OCirc d) = Ok (OCirc e) /\ op_wf (OCirc e) /\ no_super (OCirc e) /\
    exists sh, op_shape (OCirc e) = Ok sh /\ count role_out sh = count role_out sd /\ count role_in sh = count role_in sc /\ count role_in sd = count role_out sc /\
      forall o i o' i', bits (count role_out sd) o -> bits (count role_in sc) i -> bits (count role_out sd) o' -> bits (count role_in sc) i' ->
        op_dens (OCirc e) o i o' i' =
        sumf (fun m => sumf (fun m' => op_dens (OCirc d) o m o' m' * op_dens (OCirc c) m i m' i') (indices (repeat 2%nat (count role_out sc))))
             (indices (repeat 2%nat (count role_out sc))).
  Proof.
    intros Wc Wd Nc Nd Ec Ed Fr gs hs Al Ew Cmp e.
    inversion Wc as [| | | | | |? Kc Wgc Gc0|]; subst. inversion Wd as [| | | | | |? Kd Wgd Gd0|]; subst.
    inversion Nc as [| | | | | |? NsC]; subst. inversion Nd as [| | | | | |? NsD]; subst.
    assert (Gc : gates_ok c) by exact Gc0. assert (Gd : gates_ok d) by exact Gd0. clear Gc0 Gd0. pose proof (gates_order Gd) as Gd'. pose proof (gates_order Gc) as Gc'.
    assert (Id : forall p, In p (in_order d) -> In p d) by (intros p; apply Permutation_in, Permutation_sym, in_order_perm).
    assert (Ic : forall p, In p (in_order c) -> In p c) by (intros p; apply Permutation_in, Permutation_sym, in_order_perm).
    split.
    { simpl op_or. rewrite (copy_ok Kc Gc). cbn [bind]. rewrite (extend_ok Gd' Fr). reflexivity. }
    assert (Ge : gates_ok e) by (apply gates_app; auto; apply gates_stacked; auto).
    assert (We : op_wf (OCirc e)).
    { constructor; [apply keys_join; auto| |exact Ge]. intros k g I. apply in_app_iff in I as [I|I]; [eapply Wgc; eauto|].
      apply stacked_In in I as (k0 & g0 & I & _ & -> & _). apply (Wgd k0). apply Id; auto. }
    split; auto. split.
    { constructor. intros k g I. apply in_app_iff in I as [I|I]; [eapply NsC; eauto|]. apply stacked_In in I as (k0 & g0 & I & _ & -> & _). apply (NsD k0). apply Id; auto. }
    set (m := in_order c ++ stacked_after (1 + max_time c) (in_order d)).
    assert (Em : map (@gate_act S) m = gs ++ hs) by (unfold m; rewrite join_acts; auto).
    assert (Hu : forall q, used e q <-> acts_used (gs ++ hs) q).
    { intros q. rewrite <- Em. unfold acts_used, used. split.
      - intros (k & g & I & J). exists (gate_act (k, g)). split; [apply in_map|exact J]. eapply Permutation_in; [apply join_perm|exact I].
      - intros (g & I & J). apply in_map_iff in I as ([k g0] & <- & I). exists k, g0. split; [|exact J].
        eapply Permutation_in; [apply Permutation_sym, join_perm|exact I]. }
    destruct (@register_exists S e) as (Q & AQ).
    { intros x y Ux Uy N. apply Cmp; auto; apply Hu; auto. }
    assert (T : time_ordered e m) by (split; [apply join_perm|apply join_sorted]).
    destruct (circ_facts Gc Ec) as (_ & _ & Ap & _).
    destruct (@shape_exists S e m Q Ge) as (sh & Es); auto; [apply join_apart; auto|apply join_perm|apply join_sorted|rewrite Em; auto|].
    pose proof (all_qubits_register _ AQ) as Rg. destruct Rg as [IQ SQ]. destruct (all_qubits_spec _ AQ) as (NQ & _).
    assert (Tc : time_ordered c (in_order c)) by (split; [apply in_order_perm|apply in_order_sorted]).
    assert (Td : time_ordered d (in_order d)) by (split; [apply in_order_perm|apply in_order_sorted]).
    assert (Uc : forall q, used c q -> In q Q).
    { intros q (k & g & I & J). apply IQ. exists k, g. split; auto. apply in_app_iff; auto. }
    assert (Ud : forall q, used d q -> In q Q).
    { intros q (k & g & I & J). apply IQ, Hu. exists (gate_act (k, g)). split; [|exact J]. apply in_app_iff. right. apply in_map.
      eapply Permutation_in; [apply in_order_perm|exact I]. }
    destruct (dens_larger Gc Ec Tc NQ SQ Uc) as (Co & Ci & Dc). destruct (dens_larger Gd Ed Td NQ SQ Ud) as (Do & Di & Dd).
    fold gs in Co, Ci. fold hs in Do, Di.
    assert (Wm : wires_out Q gs = wires_in Q hs) by (apply filter_ext; auto).
    set (xs := map (@xc S) (in_order c)) in *. set (ys := map (@xc S) (in_order d)) in *.
    assert (Fx : Forall (@fits S) xs) by (apply xc_fits; auto). assert (Fy : Forall (@fits S) ys) by (apply xc_fits; auto).
    assert (Sk : forall l : circ op, (forall P, wires_out P (map (@skel S) (map (@xc S) l)) = wires_out P (map (@gate_act S) l)) /\
      forall P, wires_in P (map (@skel S) (map (@xc S) l)) = wires_in P (map (@gate_act S) l)).
    { intros l. split; intros P; apply filter_ext; intros q; rewrite xc_words; auto. }
    assert (Wx : wires_out (both Q) (map (@dbl S) xs) = both (wires_out Q gs)) by (rewrite dbl_wires_out by auto; unfold xs; rewrite (proj1 (Sk _)); auto).
    assert (Wxi : wires_in (both Q) (map (@dbl S) xs) = both (wires_in Q gs)) by (rewrite dbl_wires_in by auto; unfold xs; rewrite (proj2 (Sk _)); auto).
    assert (Wy : wires_out (both Q) (map (@dbl S) ys) = both (wires_out Q hs)) by (rewrite dbl_wires_out by auto; unfold ys; rewrite (proj1 (Sk _)); auto).
    assert (Wyi : wires_in (both Q) (map (@dbl S) ys) = both (wires_in Q hs)) by (rewrite dbl_wires_in by auto; unfold ys; rewrite (proj2 (Sk _)); auto).
    assert (Lb : forall l : list name, length (both l) = (length l + length l)%nat) by (intros l; unfold both; rewrite app_length, !map_length; auto).
    assert (Comp : forall o i o' i', bits (count role_out sd) o -> bits (count role_in sc) i -> bits (count role_out sd) o' -> bits (count role_in sc) i' ->
      wires_in (both Q) (map (@dbl S) xs ++ map (@dbl S) ys) = both (wires_in Q gs) /\
      wires_out (both Q) (map (@dbl S) xs ++ map (@dbl S) ys) = both (wires_out Q hs) /\
      channel Q (xs ++ ys) o i o' i' = sumf (fun m => sumf (fun m' => channel Q ys o m o' m' * channel Q xs m i m' i') (indices (repeat 2%nat (count role_out sc))))
             (indices (repeat 2%nat (count role_out sc)))).
    { intros o i o' i' Bo Bi Bo' Bi'. unfold channel. rewrite map_app.
      destruct (@amplitude_compose S (both Q) (map (@dbl S) xs) (map (@dbl S) ys) (o ++ o') (i ++ i')) as (E1 & E2 & E3).
      - apply both_NoDup; auto.
      - intros g I. apply in_app_iff in I as [I|I].
        + apply (@xc_acts Q (in_order c) Gc'); auto. intros [k x] Ip q Iq. apply Uc. exists k, x. split; auto.
        + apply (@xc_acts Q (in_order d) Gd'); auto. intros [k x] Ip q Iq. apply Ud. exists k, x. split; auto.
      - rewrite <- map_app. apply dbl_alt; [apply Forall_app; auto|]. intros q. unfold xs, ys. rewrite <- map_app, xc_words, map_app. apply Al.
      - rewrite Wx, Wyi. congruence.
      - rewrite Wy, Lb, Do. apply bits_app; auto.
      - rewrite Wxi, Lb, Ci. apply bits_app; auto.
      - rewrite E1, E2, E3, Wxi, Wy. split; auto. split; auto. rewrite Wx, Lb, Co. apply indices_split. }
    exists sh. split; auto.
    destruct (circ_known Ge Es T (conj IQ SQ)) as (_ & _ & _ & _ & _ & _ & Oe & _). rewrite Em in Oe.
    assert (Ie : count role_in sh = length (wires_in Q (gs ++ hs))).
    { destruct T as [P So]. destruct (any_order Ge Es P So) as (R' & AR' & _ & _ & X & _). rewrite AQ in AR'. injection AR' as <-. rewrite Em in X. exact X. }
    assert (Bz : forall n, bits n (repeat 0%nat n)).
    { intros n. split; [apply repeat_length|]. apply Forall_forall. intros b0 Ib. apply repeat_spec in Ib. lia. }
    destruct (@amplitude_compose S Q gs hs (repeat 0%nat (count role_out sd)) (repeat 0%nat (count role_in sc))) as (E1 & E2 & _); auto.
    { intros g I. apply in_app_iff in I as [I|I]; apply in_map_iff in I as ([k x] & <- & I).
      - destruct (Gc' k x I) as [N _]. split; [exact N|]. intros q Iq. apply Uc. exists k, x. split; auto.
      - destruct (Gd' k x I) as [N _]. split; [exact N|]. intros q Iq. apply Ud. exists k, x. split; auto. }
    { rewrite Do. auto. }
    { rewrite Ci. auto. }
    rewrite E2, Do in Oe. rewrite E1, Ci in Ie. split; auto. split; auto. split; [rewrite <- Di, <- Wm, Co; auto|]. intros o i o' i' Bo Bi Bo' Bi'.
    rewrite (dens_order Ge Es T (conj IQ SQ)) by (rewrite Oe; auto).
    assert (Ex : map (@xc S) m = xs ++ ys).
    { unfold m, xs, ys. rewrite map_app. f_equal. clear. generalize (1 + max_time c)%Z as t. induction (in_order d) as [|[k g] l IH]; intros t; auto. cbn [stacked_after map]. f_equal; auto. }
    rewrite Ex. destruct (Comp o i o' i' Bo Bi Bo' Bi') as (_ & _ & ->).
    apply sumf_ext. intros x Ix. apply sumf_ext. intros y Iy. apply in_bits in Ix, Iy. rewrite Dc, Dd; auto; rewrite <- Di, <- Wm, Co; auto.
  Qed.
End Or.
