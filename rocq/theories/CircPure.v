(** Pure operations: the density is the amplitude times its conjugate. *)
From Coq Require Import Sorting.Permutation Sorting.Sorted.
From Verif Require Import Base Scalar NetSpec Sums NetAlg ModelArray ModelTN TNInv TNOps TNSpec TNValue TNExact TNEdit
  TNEdit2 ModelVal ModelOps OpsSpec OpsProofs OpsValue ModelContract ContractExec NameOrder CircSpec CircSum CircOrder ModelCircuit CircSem CircShape
  CircWire CircStep CircNet CircCtrl CircWhen CircOp CircMain CircBuild CircAdj DensSpec CircDens CircDensNet CircDensOp.
Set Implicit Arguments.

Section Pure.
  Variable S : scalar.
  Notation tval := (tval S).
  Notation op := (op S).
  Notation env := (env (A := name)).
  Local Open Scope K_scope.
  Add Ring Kring_pure : (kring S).

  Definition ca (g : act S) : cact S := CAct (on g) (words g) (of_amp (amp g)).
  Definition kpart (s : env) : env := fun q => s (ket q).
  Definition bpart (s : env) : env := fun q => s (bra q).

  Lemma forallb_both (p : name -> bool) Q : forallb p (both Q) = forallb (fun q => p (ket q)) Q && forallb (fun q => p (bra q)) Q.
  Proof.
    unfold both. rewrite forallb_app. f_equal; induction Q as [|q Q IH]; simpl; auto; f_equal; auto.
  Qed.
  Lemma same_forallb (p r : name -> bool) Q : (forall q, p q = r q) -> forallb p Q = forallb r Q.
  Proof. intros E. induction Q as [|q Q IH]; simpl; auto. rewrite E, IH; auto. Qed.
  Lemma matrix_dbl Q g a b : length (on g) = length (words g) ->
    matrix (both Q) (dbl (ca g)) a b = matrix Q g (kpart a) (kpart b) * kconj (matrix Q g (bpart a) (bpart b)).
  Proof.
    intros F. unfold matrix. rewrite dbl_outs, dbl_ins by exact F. rewrite !map_both.
    change (act_outs (skel (ca g))) with (act_outs g). change (act_ins (skel (ca g))) with (act_ins g).
    unfold dbl at 2. cbn [amp]. change (act_outs (skel (ca g))) with (act_outs g). change (act_ins (skel (ca g))) with (act_ins g).
    rewrite !firstn_app_len, !skipn_app_len by (rewrite map_length; auto).
    rewrite forallb_both. rewrite kconj_mul, kconj_delta.
    rewrite (@same_forallb (fun q => wire_ok (word_at (dbl (ca g)) (ket q)) (b (ket q)) (a (ket q)))
               (fun q => wire_ok (word_at g q) (kpart b q) (kpart a q)) Q) by (intros q; rewrite word_ket by exact F; auto).
    rewrite (@same_forallb (fun q => wire_ok (word_at (dbl (ca g)) (bra q)) (b (bra q)) (a (bra q)))
               (fun q => wire_ok (word_at g q) (bpart b q) (bpart a q)) Q) by (intros q; rewrite word_bra by exact F; auto).
    rewrite kdelta_andb. unfold ca. cbn [c_chan]. unfold of_amp. cbn beta. unfold kpart, bpart. ring.
  Qed.

  Lemma esum_part (f : name -> name) Q (G : env -> S) s :
    (forall x y, f x = f y -> x = y) -> depends_on Q G ->
    esum (qdom (map f Q)) (fun b => G (fun q => b (f q))) s = esum (qdom Q) G env0.
  Proof.
    intros Inj D. unfold qdom. rewrite map_map. replace (map (fun q => (q, [0; 1]%nat)) Q) with (map (fun q => ((fun x => x) q, [0; 1]%nat)) Q) by auto.
    apply esum_sim. intros bs L _. rewrite map_id. apply D. intros q Iq.
    assert (H : forall Q (bs : list nat) (s t : env), length bs = length Q -> In q Q -> upds s (map f Q) bs (f q) = upds t Q bs q).
    { clear -Inj. induction Q as [|x Q IH]; intros [|b bs] s t L I; simpl in *; try tauto; try lia.
      destruct (In_dec (fun a b => match eqb_spec a b with ReflectT _ p => left p | ReflectF _ p => right p end) q Q) as [J|J].
      - apply IH; auto.
      - destruct I as [->|I]; [|tauto]. rewrite !upds_notin; auto.
        + rewrite !upd_eq; auto.
        + intros X. apply in_map_iff in X as (y & E & Iy). apply Inj in E; subst; auto. }
    apply H; auto.
  Qed.

  Lemma evolve_dbl Q g (psi phi : env -> S) e : length (on g) = length (words g) -> NoDup Q -> incl (on g) Q ->
    depends_on Q psi -> depends_on Q phi ->
    evolve (both Q) (dbl (ca g)) (fun s => psi (kpart s) * kconj (phi (bpart s))) e =
    evolve Q g psi (kpart e) * kconj (evolve Q g phi (bpart e)).
  Proof.
    intros F NQ I Dp Df. unfold evolve. rewrite esum_conj.
    assert (DM : forall a (f : env -> S), depends_on Q f -> depends_on Q (fun b => matrix Q g a b * f b)).
    { intros a f D s s' E. rewrite (D s s' E). f_equal. unfold matrix. f_equal.
      - f_equal. clear -E. induction Q as [|q r IH]; simpl; auto. rewrite IH, (E q); simpl; auto. intros x Ix; apply E; simpl; auto.
      - f_equal. apply map_ext_in. intros q Iq. apply E, I, act_ins_on. auto. }
    rewrite (esum_ext_all _ _ (fun b => (matrix Q g (kpart e) (kpart b) * psi (kpart b)) * kconj (matrix Q g (bpart e) (bpart b) * phi (bpart b)))).
    2:{ intros b. rewrite matrix_dbl, kconj_mul by auto. ring. }
    unfold both. rewrite qdom_app, esum_app.
    rewrite (esum_ext_all _ _ (fun s => (matrix Q g (kpart e) (kpart s) * psi (kpart s)) * esum (qdom Q) (fun b => kconj (matrix Q g (bpart e) b * phi b)) env0)).
    - rewrite esum_mul_r by (intros ? ? _; auto). f_equal.
      apply (@esum_part ket Q (fun b => matrix Q g (kpart e) b * psi b)); auto. apply ket_inj.
    - intros s. rewrite esum_mul_l.
      + f_equal. apply (@esum_part bra Q (fun b => kconj (matrix Q g (bpart e) b * phi b))); [apply bra_inj|].
        intros x y E. f_equal. apply (DM (bpart e) phi Df x y E).
      + rewrite keys_qdom. intros x y E. apply (DM (kpart e) psi Dp). intros q Iq. unfold kpart. apply E.
        intros X. apply in_map_iff in X as (z & X & _). discriminate.
  Qed.

  Lemma run_dbl Q : NoDup Q -> forall gs (psi phi : env -> S) Psi e, (forall g, In g gs -> length (on g) = length (words g) /\ incl (on g) Q) ->
    depends_on Q psi -> depends_on Q phi -> (forall s, Psi s = psi (kpart s) * kconj (phi (bpart s))) ->
    run (both Q) (map (fun g => dbl (ca g)) gs) Psi e = run Q gs psi (kpart e) * kconj (run Q gs phi (bpart e)).
  Proof.
    intros NQ. induction gs as [|g gs IH]; intros psi phi Psi e H Dp Df E; [apply E|].
    cbn [map]. unfold run at 1 2 3. cbn [fold_left].
    apply (IH (evolve Q g psi) (evolve Q g phi)); [intros x Ix; apply H; simpl; auto|apply evolve_depends, H; simpl; auto|apply evolve_depends, H; simpl; auto|].
    intros s. destruct (H g) as [H1 H2]; [simpl; auto|]. rewrite <- evolve_dbl by auto.
    unfold evolve. apply esum_ext_all. intros b. rewrite E; auto.
  Qed.

  Lemma upds_part (f : name -> name) l : (forall x y, f x = f y -> x = y) -> forall bs (s t : env), (forall q, s (f q) = t q) ->
    forall q, upds s (map f l) bs (f q) = upds t l bs q.
  Proof.
    intros Inj. induction l as [|x l IH]; intros [|b bs] s t E q; simpl; auto. apply IH. intros y.
    unfold upd. destruct (eqb_spec (f y) (f x)) as [X|X]; destruct (eqb_spec y x) as [Y|Y]; auto.
    - apply Inj in X. congruence.
    - congruence.
  Qed.
  Lemma upds_app' (l m : list name) : forall x y (s : env), length x = length l -> upds s (l ++ m) (x ++ y) = upds (upds s l x) m y.
  Proof. induction l as [|q l IH]; intros [|b x] y s L; simpl in *; try lia; auto. Qed.
  Lemma kpart_place l o o' q : length o = length l -> kpart (place (both l) (o ++ o')) q = place l o q.
  Proof.
    intros L. unfold kpart, place, both. rewrite upds_app' by (rewrite map_length; auto). rewrite upds_notin.
    - apply upds_part; [apply ket_inj|auto].
    - intros X. apply in_map_iff in X as (y & E & _). discriminate.
  Qed.
  Lemma bpart_place l o o' q : length o = length l -> bpart (place (both l) (o ++ o')) q = place l o' q.
  Proof.
    intros L. unfold bpart, place, both. rewrite upds_app' by (rewrite map_length; auto).
    apply upds_part; [apply bra_inj|]. intros y. rewrite upds_notin; auto. intros X. apply in_map_iff in X as (z & E & _). discriminate.
  Qed.
  Lemma basis_depends Q x : depends_on Q (basis (S := S) Q x).
  Proof. intros s s' E. unfold basis. f_equal. apply forallb_iff. split; intros H q Iq; specialize (H q Iq); rewrite (E q Iq) in *; auto. Qed.

  Theorem channel_pure Q gs o i o' i' : NoDup Q -> (forall g, In g gs -> length (on g) = length (words g) /\ incl (on g) Q) ->
    length o = length (wires_out Q gs) -> length i = length (wires_in Q gs) ->
    channel Q (map ca gs) o i o' i' = amplitude Q gs o i * kconj (amplitude Q gs o' i').
  Proof.
    intros NQ H Lo Li. unfold channel, amplitude.
    assert (Ff : Forall (@fits S) (map ca gs)) by (rewrite Forall_map; apply Forall_forall; intros g Ig; apply (H g Ig)).
    rewrite dbl_wires_out, dbl_wires_in by auto. rewrite !map_map.
    assert (E : map (fun x => skel (ca x)) gs = map (fun x => Act (on x) (words x) (fun _ _ => 0)) gs) by auto.
    assert (Hs : forall q, history (map (fun x => skel (ca x)) gs) q = history gs q).
    { intros q. clear. induction gs as [|g gs IH]; auto. cbn [map]. rewrite !history_cons, IH. auto. }
    assert (Wo : wires_out Q (map (fun x => skel (ca x)) gs) = wires_out Q gs) by (apply filter_ext; intros q; rewrite Hs; auto).
    assert (Wi : wires_in Q (map (fun x => skel (ca x)) gs) = wires_in Q gs) by (apply filter_ext; intros q; rewrite Hs; auto).
    rewrite Wo, Wi.
    rewrite (@run_dbl Q NQ gs (basis Q (place (wires_in Q gs) i)) (basis Q (place (wires_in Q gs) i'))); auto using basis_depends.
    - f_equal; [|f_equal].
      + apply (@run_depends S Q gs); auto using basis_depends; [apply H|]. intros q _. apply kpart_place; auto.
      + apply (@run_depends S Q gs); auto using basis_depends; [apply H|]. intros q _. apply bpart_place; auto.
    - intros s. unfold basis at 1. rewrite forallb_both, kdelta_andb. unfold basis. rewrite kconj_delta. f_equal; f_equal; apply same_forallb; intros q.
      + unfold kpart. rewrite <- (@kpart_place (wires_in Q gs) i i' q Li). auto.
      + unfold bpart. rewrite <- (@bpart_place (wires_in Q gs) i i' q Li). auto.
  Qed.

  Theorem dens_pure (o : op) : op_wf o -> no_super o -> op_pure o = Ok true ->
    forall sh, op_shape o = Ok sh -> forall x y x' y', bits (count role_out sh) x -> bits (count role_in sh) y ->
      bits (count role_out sh) x' -> bits (count role_in sh) y' ->
    op_dens o x y x' y' = op_amp o x y * kconj (op_amp o x' y').
  Proof.
    intros W Ns. induction Ns as [sa sh d|sa sh d|b|b|sh d|b c|c NsI IH]; intros Pu s Es; try (intros; reflexivity).
    - simpl in Pu. discriminate.
    - intros x y x' y' Bx By Bx' By'. inversion W as [| | | | | |? N Wg G|]; subst.
      destruct (pure_circ _ Pu) as [_ Pg].
      destruct (circ_facts G Es) as (Q & AQ & Ap & Al & Gk & _ & Co & Ci & Am).
      destruct (all_qubits_spec _ AQ) as (NQ & _ & MQ).
      rewrite Co in *. rewrite Ci in *. rewrite Am. rewrite opdens_circ. unfold circ_chan. rewrite all_qubits_map, AQ.
      set (gs := circ_acts (map_circ (@spec_of S) c)) in *.
      assert (Hg : forall g, In g gs -> length (on g) = length (words g) /\ incl (on g) Q).
      { intros g Ig. unfold gs, circ_acts in Ig. rewrite in_order_map in Ig. unfold map_circ in Ig. rewrite map_map in Ig.
        apply in_map_iff in Ig as ([k h] & <- & Ik). apply (Permutation_in _ (Permutation_sym (in_order_perm c))) in Ik.
        destruct (G k h Ik) as [_ L]. apply op_len_shape in L as [_ L]. simpl. split; [rewrite map_length; auto|].
        intros q Iq. apply MQ, qubits_In. exists (k, h); auto. }
      rewrite <- (@channel_pure Q gs x y x' y'); auto; [|apply Bx|apply By].
      unfold channel. apply amplitude_same; auto.
      + apply both_NoDup; auto.
      + unfold gs, circ_acts. rewrite !in_order_map. unfold map_circ. rewrite !map_map.
        assert (Hin : forall p, In p (in_order c) -> In p c) by (intros p; apply Permutation_in, Permutation_sym, in_order_perm).
        revert Hin. generalize (in_order c) as l. induction l as [|[k [t q a]] l IHl]; intros Hin; simpl; constructor; [|apply IHl; intros; apply Hin; simpl; auto].
        assert (Ik : In (k, Gate t q a) c) by (apply Hin; simpl; auto).
        destruct (G _ _ Ik) as [Nq L]. simpl in Nq, L. apply op_len_shape in L as [L1 L2].
        assert (Ff : length q = length (map role_word (shape_or a))) by (rewrite map_length; auto).
        set (A := Act q (map role_word (shape_or a)) (op_amp a)).
        split; [reflexivity|split; [reflexivity|]].
        set (B := CAct q (map role_word (shape_or a)) (op_dens a)).
        change (dbl (cgact (map_gate (dspec (S:=S)) (Gate t q a)))) with (dbl B).
        change (ca (gact (map_gate (spec_of (S:=S)) (Gate t q a)))) with (ca A).
        intros o i Bo Bi. rewrite dbl_outs in Bo by exact Ff. rewrite dbl_ins in Bi by exact Ff.
        assert (Lo : length (act_outs (skel B)) = count role_out (shape_or a)) by (apply act_outs_count; auto).
        assert (Li : length (act_ins (skel B)) = count role_in (shape_or a)) by (apply act_ins_count; auto).
        unfold dbl. cbn [amp]. change (act_outs (skel (ca A))) with (act_outs (skel B)). change (act_ins (skel (ca A))) with (act_ins (skel B)).
        rewrite Lo, Li. destruct Bo as [L3 F3], Bi as [L4 F4]. unfold both in L3, L4. rewrite app_length, !map_length in L3, L4.
        rewrite Lo in L3. rewrite Li in L4.
        destruct (@Forall_cut _ (fun b => b < 2)%nat (count role_out (shape_or a)) o F3).
        destruct (@Forall_cut _ (fun b => b < 2)%nat (count role_in (shape_or a)) i F4).
        unfold B, ca, of_amp. cbn [c_chan amp A].
        apply (IH k _ Ik (Wg k _ Ik) (Pg k _ Ik) (shape_or a) L1); (split; [rewrite ?firstn_length, ?skipn_length; lia|auto]).
      + intros g Ig. rewrite in_order_map in Ig. unfold map_circ in Ig. rewrite !map_map in Ig. apply in_map_iff in Ig as ([k h] & <- & Ik).
        apply (Permutation_in _ (Permutation_sym (in_order_perm c))) in Ik. simpl. apply both_incl.
        intros q Iq. apply MQ, qubits_In. exists (k, h); auto.
      + set (cs := map _ (in_order _)). assert (Fc : Forall (@fits S) cs).
        { unfold cs. rewrite in_order_map. unfold map_circ. rewrite !map_map. rewrite Forall_map. apply Forall_forall. intros [k h] Ik.
          apply (Permutation_in _ (Permutation_sym (in_order_perm c))) in Ik. destruct (G k h Ik) as [_ L]. apply op_len_shape in L as [_ L].
          unfold fits. simpl. rewrite map_length. auto. }
        rewrite dbl_wires_out by auto.
        assert (Hs : forall q, history (map (@skel S) cs) q = history gs q).
        { intros q. apply words_history. unfold cs, gs, circ_acts. rewrite !in_order_map. unfold map_circ. rewrite !map_map.
          generalize (in_order c) as l. clear. induction l as [|[k [t u a]] l IH]; simpl; constructor; auto. }
        assert (Wo : wires_out Q (map (@skel S) cs) = wires_out Q gs) by (apply filter_ext; intros q; rewrite Hs; auto).
        rewrite Wo. unfold both. rewrite app_length, !map_length. apply bits_app; auto.
  Qed.
End Pure.
