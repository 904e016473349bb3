(** Circuits of trace-preserving operations preserve the trace. *)
From Coq Require Import Sorting.Permutation Sorting.Sorted.
From Verif Require Import Base Scalar NetSpec Sums NetAlg ModelArray ModelTN TNInv TNOps TNSpec TNValue TNExact TNEdit
  TNEdit2 ModelVal ModelOps OpsSpec OpsProofs OpsValue ModelContract ContractExec NameOrder CircSpec CircSum CircOrder ModelCircuit CircSem CircShape
  CircWire CircStep CircNet CircCtrl CircWhen CircOp CircMain CircBuild CircAdj DensSpec CircDens CircDensNet CircDensOp CircPure MatSpec MatProofs NoiseSpec.
Set Implicit Arguments.

Section Trace.
  Variable S : scalar.
  Notation tval := (tval S).
  Notation op := (op S).
  Notation env := (env (A := name)).
  Local Open Scope K_scope.
  Add Ring Kring_trace : (kring S).

  (** the trace of the outputs is the identity *)
  Definition unital (n m : nat) (ch : chan S) : Prop :=
    forall i i', bits m i -> bits m i' -> sumf (fun o => ch o i o i') (words2 n) = kdelta (eqb i i').
  Lemma unital_preserving n m ch : unital n m ch -> trace_preserving n m ch.
  Proof.
    intros U rho. unfold mtrace, chan_apply. rewrite sumf_swap. apply sumf_ext. intros i Ii. apply in_words in Ii.
    rewrite sumf_swap. rewrite (sumf_ext _ (fun i' => kdelta (eqb i i') * rho i i')).
    - apply pin_l; auto.
    - intros i' Ii'. apply in_words in Ii'. rewrite sumf_mul_r, U; auto.
  Qed.
  Lemma preserving_unital n m ch : trace_preserving n m ch -> unital n m ch.
  Proof.
    intros T i i' Bi Bi'. specialize (T (fun a b => kdelta (eqb i a) * kdelta (eqb i' b))).
    unfold mtrace, chan_apply in T.
    rewrite (sumf_ext _ (fun o => ch o i o i')) in T.
    - rewrite T. rewrite (@pin_l _ _ (fun a => kdelta (eqb i' a))) by auto. rewrite eqb_sym; auto.
    - intros o _. rewrite (sumf_ext _ (fun a => kdelta (eqb i a) * sumf (fun b => kdelta (eqb i' b) * ch o a o b) (words2 m))).
      + rewrite pin_l by auto. rewrite pin_l by auto. auto.
      + intros a _. rewrite <- sumf_mul_l. apply sumf_ext. intros; ring.
  Qed.
  Lemma unital_ext n m ch ch' : (forall o i o' i', bits n o -> bits m i -> bits n o' -> bits m i' -> ch o i o' i' = ch' o i o' i') ->
    unital n m ch -> unital n m ch'.
  Proof.
    intros E U i i' Bi Bi'. rewrite <- (U i i'); auto. apply sumf_ext. intros o Io. apply in_words in Io. rewrite E; auto.
  Qed.

  (** both copies of the register carry the same bits *)
  Definition two (a b : env) : env := fun x =>
    match x with NT [q; NS s] => if String.eqb s "p" then a q else if String.eqb s "d" then b q else 0%nat | _ => 0%nat end.
  Definition T (Q : list name) (psi : env -> S) : S := esum (qdom Q) (fun s => psi (two s s)) env0.

  Lemma two_k a b q : two a b (ket q) = a q. Proof. reflexivity. Qed.
  Lemma two_b a b q : two a b (bra q) = b q. Proof. reflexivity. Qed.

  Lemma delta_impl (c d : bool) (x : S) : (c = true -> d = true) -> kdelta d * (kdelta c * x) = kdelta c * x.
  Proof. destruct c, d; intros H; simpl; try ring. discriminate (H eq_refl). Qed.

  (** the sum over the bits after an operation *)
  Lemma column Q (g : act S) b :
    NoDup Q -> NoDup (on g) -> incl (on g) Q -> (forall q, In q Q -> b q < 2)%nat ->
    esum (qdom Q) (fun a => matrix Q g a b) env0 =
    kdelta (forallb (fun q => match word_at g q with [] => true | w => starts_in w || Nat.eqb (b q) 0 end) Q)
    * sumf (fun o => amp g o (map b (act_ins g))) (words2 (length (act_outs g))).
  Proof.
    intros NQ No I B.
    assert (H := @evolve_closed S Q (act_adj g) (fun _ => 1) b NQ No I (fun _ _ _ => eq_refl) B).
    apply (f_equal kconj) in H. unfold evolve in H. rewrite esum_conj in H.
    rewrite (esum_ext_all _ _ (fun a => matrix Q g a b)) in H.
    2:{ intros a. rewrite matrix_adj, kconj_mul, kconj_kconj_S, kconj_1. ring. }
    rewrite H. rewrite kconj_mul, kconj_delta. f_equal.
    - f_equal. apply same_forallb. intros q. rewrite word_at_adj. unfold after_ok.
      destruct (word_at g q) as [|c w]; auto. rewrite flip_ends.
      assert (N : flip_word (c :: w) <> []).
      { intros X. apply (f_equal flip_word) in X. rewrite flip_flip in X. discriminate. }
      destruct (flip_word (c :: w)); [congruence|]. auto.
    - rewrite esum_conj, esum_bits, act_ins_adj, act_outs_adj. apply sumf_ext. intros o Io. apply in_words in Io.
      rewrite kconj_mul, kconj_1. cbn [act_adj amp]. rewrite kconj_kconj_S.
      rewrite (@upds_map name _ (act_outs g) o); [ring| |symmetry; apply Io].
      apply NoDup_filter. auto.
  Qed.

  Variable Q : list name.
  Hypothesis NQ : NoDup Q.
  Definition zero2 (b : env) (q : name) : bool := Nat.eqb (b (ket q)) 0 && Nat.eqb (b (bra q)) 0.
  Definition alive (live : name -> bool) (b : env) : bool := forallb (fun q => live q || zero2 b q) Q.
  Definition supp (live : name -> bool) (psi : env -> S) : Prop := forall b, psi b = kdelta (alive live b) * psi b.
  Definition next (live : name -> bool) (g : cact S) (q : name) : bool :=
    match word_at (skel g) q with [] => live q | w => ends_out w end.

  Lemma both_wires (g : cact S) a b : fits g ->
    forallb (fun q => wire_ok (word_at (dbl g) q) (b q) (a q)) (both Q) =
    forallb (fun q => wire_ok (word_at (skel g) q) (b (ket q)) (a (ket q))) Q && forallb (fun q => wire_ok (word_at (skel g) q) (b (bra q)) (a (bra q))) Q.
  Proof.
    intros F. rewrite forallb_both. f_equal; apply same_forallb; intros q; [rewrite word_ket|rewrite word_bra]; auto.
  Qed.

  Lemma supp_step live g psi : fits g -> supp live psi -> supp (next live g) (evolve (both Q) (dbl g) psi).
  Proof.
    intros F Sp a. unfold evolve. rewrite <- esum_scale. apply esum_ext_all. intros b. rewrite (Sp b). symmetry.
    unfold matrix. rewrite both_wires by auto.
    set (A := forallb _ Q). set (B := forallb _ Q). set (C := alive live b). set (x := amp _ _ _).
    transitivity (kdelta (alive (next live g) a) * (kdelta (A && B && C) * (x * psi b))); [rewrite !kdelta_andb; ring|].
    rewrite delta_impl; [rewrite !kdelta_andb; ring|].
    intros H. apply andb_true_iff in H as [H Hc]. apply andb_true_iff in H as [Ha Hb].
    apply forallb_forall. intros q Iq. unfold A in Ha. unfold B in Hb. unfold C, alive in Hc.
    rewrite forallb_forall in Ha, Hb, Hc. specialize (Ha q Iq). specialize (Hb q Iq). specialize (Hc q Iq).
    unfold next, zero2 in *. destruct (word_at (skel g) q) as [|c w]; cbn [wire_ok] in *.
    - apply Nat.eqb_eq in Ha, Hb. rewrite <- Ha, <- Hb. auto.
    - apply andb_true_iff in Ha as [_ Ha], Hb as [_ Hb]. destruct (ends_out (c :: w)); auto. simpl in *. rewrite Ha, Hb; auto.
  Qed.

  Definition diag (b : env) : bool := forallb (fun q => Nat.eqb (b (ket q)) (b (bra q))) Q.
  Lemma T_diag psi : depends_on (both Q) psi -> T Q psi = esum (qdom (both Q)) (fun b => kdelta (diag b) * psi b) env0.
  Proof.
    intros D. unfold T, both. rewrite qdom_app.
    rewrite (@esum_perm _ _ _ (qdom (map ket Q) ++ qdom (map bra Q)) (qdom (map bra Q) ++ qdom (map ket Q))).
    2:{ apply Permutation_app_comm. }
    2:{ rewrite keys_app, !keys_qdom. apply both_NoDup; auto. }
    2:{ apply depends_exten with (L := both Q). intros s s' E. rewrite (D s s' E). unfold diag. f_equal. f_equal.
        apply forallb_iff. split; intros H q Iq; specialize (H q Iq); pose proof (E (ket q) (proj2 (both_ket q Q) Iq)) as E1;
          pose proof (E (bra q) (proj2 (both_bra q Q) Iq)) as E2; rewrite ?E1, ?E2; rewrite ?E1, ?E2 in H; auto. }
    rewrite esum_app.
    rewrite <- (@esum_part S bra Q (fun s => psi (two s s)) env0); [|apply bra_inj|].
    2:{ intros s s' E. apply D. intros x Ix. apply both_In in Ix as (q & Iq & [->| ->]); [rewrite !two_k|rewrite !two_b]; auto. }
    apply esum_ext; [rewrite keys_qdom; apply (@NoDup_app_remove_l _ (map ket Q)); apply both_NoDup; auto|].
    intros s [R _].
    assert (Bs : forall q, In q Q -> In (s (bra q)) [0; 1]%nat).
    { intros q Iq. apply (R (bra q)). unfold qdom. rewrite map_map. apply in_map_iff. eauto. }
    assert (Nk : NoDup (keys (qdom (map ket Q)))).
    { rewrite keys_qdom. apply NoDup_left_inv with (g := fun x => match x with NT [q; _] => q | _ => x end); auto. }
    rewrite (@esum_ext _ _ _ (qdom (map ket Q)) (fun b => kdelta (diag b) * psi b) 
              (fun b => kdelta (eqb (map b (keys (qdom (map ket Q)))) (map (fun q => s (bra q)) Q)) * psi b)); auto.
    2:{ intros b [_ R2]. f_equal. f_equal. unfold diag. rewrite keys_qdom, map_map.
        rewrite (eqb_map (fun q => b (ket q)) (fun q => s (bra q))). apply forallb_iff.
        assert (E : forall q, b (bra q) = s (bra q)).
        { intros q. apply R2. rewrite keys_qdom. intros X. apply in_map_iff in X as (y & X & _). discriminate. }
        split; intros H q Iq; specialize (H q Iq); rewrite E in *; auto. }
    assert (H := @esum_pin_list S name _ (qdom (map ket Q)) [] (map (fun q => s (bra q)) Q) psi s).
    rewrite app_nil_r in H. rewrite H; auto.
    - assert (A1 : all_in (qdom (map ket Q)) (map (fun q => s (bra q)) Q) = true).
      { unfold qdom. rewrite map_map. clear -Bs. induction Q as [|q r IH]; auto. simpl in *.
        destruct (Bs q) as [<-|[<-|[]]]; auto; simpl; apply IH; auto. }
      rewrite A1. cbn [kdelta esum]. transitivity (psi (upds s (keys (qdom (map ket Q))) (map (fun q => s (bra q)) Q))); [|ring].
      apply D. rewrite keys_qdom. intros x Ix. apply both_In in Ix as (q & Iq & [->| ->]); [rewrite two_k|rewrite two_b].
      + rewrite (@upds_sim ket Q (map (fun q => s (bra q)) Q) s s q); auto.
        * symmetry. apply (@upds_self name _ Q s (fun q => s (bra q)) q); auto.
        * rewrite keys_qdom in Nk; auto.
        * rewrite map_length; auto.
      + rewrite upds_notin; auto. intros X. apply in_map_iff in X as (y & X & _). discriminate.
    - intros a ws Ia. unfold qdom in Ia. apply in_map_iff in Ia as (x & E & _). inversion E; subst. repeat constructor; simpl; intuition discriminate.
  Qed.
  Lemma T_step live (g : cact S) psi : fits g -> NoDup (c_on g) -> incl (c_on g) Q -> depends_on (both Q) psi -> supp live psi ->
    (forall q, word_at (skel g) q <> [] -> starts_in (word_at (skel g) q) = live q) ->
    unital (length (act_outs (skel g))) (length (act_ins (skel g))) (c_chan g) ->
    T Q (evolve (both Q) (dbl g) psi) = T Q psi.
  Proof.
    intros F No I D Sp Lv U. rewrite (T_diag D). unfold T, evolve. rewrite esum_swap_env.
    apply esum_ext; [rewrite keys_qdom; apply both_NoDup; auto|]. intros b [Rb _].
    assert (Bb : forall q, In q Q -> (b (ket q) < 2)%nat /\ (b (bra q) < 2)%nat).
    { intros q Iq. assert (H : forall x, In x (both Q) -> (b x < 2)%nat).
      { intros x Ix. assert (J : In (b x) [0; 1]%nat) by (apply (Rb x); unfold qdom; apply in_map_iff; eauto). simpl in J; lia. }
      split; apply H; [apply both_ket|apply both_bra]; auto. }
    set (ins := act_ins (skel g)) in *. set (outs := act_outs (skel g)) in *.
    set (bk := fun q => b (ket q)). set (bb := fun q => b (bra q)).
    set (g' := Act (c_on g) (c_words g) (fun o i => c_chan g o i o (map bb ins))).
    set (R := forallb (fun q => match word_at (skel g) q with [] => Nat.eqb (bk q) (bb q) | w => starts_in w || Nat.eqb (bb q) 0 end) Q).
    assert (Ii : incl ins Q) by (intros q Iq; apply I; unfold ins, act_ins in Iq; apply filter_In in Iq; tauto).
    rewrite (esum_ext_all _ _ (fun a => (kdelta R * psi b) * matrix Q g' a bk)).
    2:{ intros a. unfold matrix. rewrite both_wires by auto. rewrite dbl_outs, dbl_ins by auto. rewrite !map_both. fold ins outs.
        unfold dbl. cbn [amp]. fold ins outs. change (fun q => b (ket q)) with bk. change (fun q => b (bra q)) with bb.
        change (map (fun q => two a a (ket q)) outs) with (map a outs). change (map (fun q => two a a (bra q)) outs) with (map a outs).
        rewrite !firstn_app_len, !skipn_app_len by (rewrite map_length; auto).
        change (act_outs g') with outs. change (act_ins g') with ins. unfold g'. cbn [amp].
        change (fun q => wire_ok (word_at (skel g) q) (b (ket q)) (two a a (ket q))) with (fun q => wire_ok (word_at (skel g) q) (bk q) (a q)).
        change (fun q => wire_ok (word_at (skel g) q) (b (bra q)) (two a a (bra q))) with (fun q => wire_ok (word_at (skel g) q) (bb q) (a q)).
        change (fun q => wire_ok (word_at (Act (c_on g) (c_words g) (fun o i => c_chan g o i o (map bb ins))) q) (bk q) (a q))
          with (fun q => wire_ok (word_at (skel g) q) (bk q) (a q)).
        set (A := forallb (fun q => wire_ok (word_at (skel g) q) (bk q) (a q)) Q). set (B := forallb (fun q => wire_ok (word_at (skel g) q) (bb q) (a q)) Q).
        assert (E : A && B = R && A).
        { unfold A, B, R. apply Bool.eq_iff_eq_true. rewrite !andb_true_iff, !forallb_forall. split.
          - intros [Ha Hb]. split; auto. intros q Iq. specialize (Ha q Iq). specialize (Hb q Iq).
            destruct (word_at (skel g) q) as [|c w]; cbn [wire_ok] in *.
            + apply Nat.eqb_eq in Ha, Hb. apply Nat.eqb_eq. congruence.
            + apply andb_true_iff in Hb. tauto.
          - intros [Hr Ha]. split; auto. intros q Iq. specialize (Ha q Iq). specialize (Hr q Iq).
            destruct (word_at (skel g) q) as [|c w]; cbn [wire_ok] in *.
            + apply Nat.eqb_eq in Ha, Hr. apply Nat.eqb_eq. congruence.
            + apply andb_true_iff in Ha. apply andb_true_iff. tauto. }
        rewrite E, kdelta_andb. ring. }
    rewrite esum_scale, column; auto.
    2:{ intros q Iq. apply Bb; auto. }
    change (act_outs g') with outs. change (act_ins g') with ins. unfold g' at 2. cbn [amp].
    assert (Bits : forall f : env, (forall q, In q Q -> (f q < 2)%nat) -> bits (length ins) (map f ins)).
    { intros f H. split; [apply map_length|]. apply Forall_forall. intros x Ix. apply in_map_iff in Ix as (q & <- & Iq). auto. }
    rewrite (U (map bk ins) (map bb ins)); [|apply Bits; intros q Iq; apply Bb; auto..].
    rewrite (Sp b). change (word_at g') with (word_at (skel g)).
    set (R' := forallb _ Q). set (E := eqb _ _).
    assert (X : R && alive live b && R' && E = diag b && alive live b).
    { apply Bool.eq_iff_eq_true. unfold R, R', E, diag, alive. rewrite (eqb_map bk bb). rewrite !andb_true_iff, !forallb_forall. split.
      - intros [[[H1 H2] H3] H4]. split; auto. intros q Iq. specialize (H1 q Iq). specialize (H2 q Iq). specialize (H3 q Iq).
        specialize (Lv q). fold (bk q) (bb q).
        destruct (word_at (skel g) q) as [|c w] eqn:W; auto. destruct (starts_in (c :: w)) eqn:St.
        + apply H4. apply filter_In. split; [apply word_at_on; congruence|]. rewrite W; auto.
        + simpl in H1, H3. apply Nat.eqb_eq in H1, H3. rewrite H1, H3; auto.
      - intros [H1 H2]. split; [split; [split; auto|]|].
        + intros q Iq. specialize (H1 q Iq). specialize (H2 q Iq). specialize (Lv q). destruct (word_at (skel g) q) as [|c w]; auto.
          rewrite Lv by discriminate. unfold zero2 in H2. destruct (live q); auto. simpl in *. apply andb_true_iff in H2. tauto.
        + intros q Iq. specialize (H2 q Iq). specialize (Lv q). destruct (word_at (skel g) q) as [|c w]; auto.
          rewrite Lv by discriminate. unfold zero2 in H2. destruct (live q); auto. simpl in *. apply andb_true_iff in H2. tauto.
        + intros q Iq. apply H1, Ii; auto. }
    transitivity (kdelta (R && alive live b && R' && E) * psi b); [rewrite !kdelta_andb; ring|]. rewrite X, kdelta_andb. ring.
  Qed.

  Definition placed (g : cact S) : Prop :=
    fits g /\ NoDup (c_on g) /\ incl (c_on g) Q /\ unital (length (act_outs (skel g))) (length (act_ins (skel g))) (c_chan g).
  Definition follows (live : name -> bool) (gs : list (cact S)) : Prop := forall q,
    alternating (history (map (@skel S) gs) q) /\ (history (map (@skel S) gs) q <> [] -> starts_in (history (map (@skel S) gs) q) = live q).
  Definition final (live : name -> bool) (gs : list (cact S)) (q : name) : bool :=
    match history (map (@skel S) gs) q with [] => live q | w => ends_out w end.
  Lemma run_T gs : forall live psi, Forall placed gs -> follows live gs -> depends_on (both Q) psi -> supp live psi ->
    T Q (run (both Q) (map (@dbl S) gs) psi) = T Q psi /\ supp (final live gs) (run (both Q) (map (@dbl S) gs) psi).
  Proof.
    induction gs as [|g gs IH]; intros live psi P Fo D Sp; [auto|]. inversion P as [|? ? (F & No & I & U) P']; subst.
    assert (Ib : incl (on (dbl g)) (both Q)) by (apply both_incl; auto).
    assert (Fo' : follows (next live g) gs).
    { intros q. destruct (Fo q) as [A St]. cbn [map] in A, St. rewrite history_cons in A, St. split; [eapply alternating_app_r; eauto|].
      intros N. unfold next. destruct (word_at (skel g) q) as [|c w] eqn:W; [apply St; auto|]. apply alternating_meet; auto. discriminate. }
    destruct (IH (next live g) (evolve (both Q) (dbl g) psi)) as [E1 E2]; auto.
    - apply evolve_depends; auto.
    - apply supp_step; auto.
    - cbn [map]. unfold run in *. cbn [fold_left]. split.
      + rewrite E1. apply T_step with (live := live); auto.
        intros q N. destruct (Fo q) as [A St]. cbn [map] in A, St. rewrite history_cons in A, St. rewrite <- St.
        * destruct (word_at (skel g) q); [congruence|]. auto.
        * intros X. apply app_eq_nil in X. tauto.
      + intros b. rewrite (E2 b) at 1. f_equal. f_equal. unfold alive. apply same_forallb. intros q. f_equal.
        unfold final, next. cbn [map]. rewrite history_cons.
        destruct (history (map (skel (S:=S)) gs) q) as [|c h] eqn:Hq; [rewrite app_nil_r; auto|].
        assert (X : ends_out (word_at (skel g) q ++ c :: h) = ends_out (c :: h)) by (apply ends_out_app; discriminate).
        destruct (word_at (skel g) q ++ c :: h) eqn:Y; auto. apply app_eq_nil in Y as [_ Y]. discriminate.
  Qed.

  (** *** the trace of a channel *)
  Theorem channel_unital gs : Forall placed gs -> (forall q, alternating (history (map (@skel S) gs) q)) ->
    unital (length (wires_out Q (map (@skel S) gs))) (length (wires_in Q (map (@skel S) gs))) (channel Q gs).
  Proof.
    intros P Al i i' Bi Bi'. set (sk := map (@skel S) gs) in *.
    assert (Ff : Forall (@fits S) gs) by (eapply Forall_impl; [|exact P]; intros g Hg; apply Hg).
    set (live := fun q => starts_in (history sk q)).
    set (psi := basis (S := S) (both Q) (place (both (wires_in Q sk)) (i ++ i'))).
    destruct (@run_T gs live psi) as [E1 E2]; auto.
    - intros q. split; [apply Al|auto].
    - apply basis_depends.
    - intros b. unfold psi, basis. rewrite <- kdelta_andb. f_equal. apply Bool.eq_iff_eq_true. rewrite andb_true_iff. split; [|tauto].
      intros H. split; auto. unfold alive. apply forallb_forall. intros q Iq. rewrite forallb_forall in H.
      destruct (live q) eqn:L; auto. simpl. unfold zero2.
      assert (Nq : ~ In q (wires_in Q sk)) by (unfold wires_in; rewrite filter_In; intros [_ X]; unfold live in L; congruence).
      assert (H1 := H (ket q) (proj2 (both_ket q Q) Iq)). assert (H2 := H (bra q) (proj2 (both_bra q Q) Iq)).
      rewrite place_notin in H1 by (rewrite both_ket; auto). rewrite place_notin in H2 by (rewrite both_bra; auto). rewrite H1, H2; auto.
    - assert (Dr : depends_on (both Q) (run (both Q) (map (@dbl S) gs) psi)).
      { apply run_depends; [|apply basis_depends]. intros x Ix. apply in_map_iff in Ix as (g & <- & Ig).
        rewrite Forall_forall in P. apply both_incl. apply (P g Ig). }
      set (phi := run (both Q) (map (@dbl S) gs) psi) in *.
      assert (T1 : T Q phi = sumf (fun o => channel Q gs o i o i') (words2 (length (wires_out Q sk)))).
      { set (p := fun q => ends_out (history sk q)). set (rest := filter (fun q => negb (p q)) Q).
        assert (Fin : forall q, final live gs q = p q).
        { intros q. unfold final, p, live. fold sk. destruct (history sk q); auto. }
        assert (Dd : depends_on Q (fun s => phi (two s s))).
        { intros s s' E. apply Dr. intros x Ix. apply both_In in Ix as (q & Iq & [->| ->]); [rewrite !two_k|rewrite !two_b]; auto. }
        unfold T. rewrite (@esum_perm _ _ _ (qdom Q) (qdom rest ++ qdom (filter p Q))).
        2:{ rewrite <- qdom_app. apply Permutation_map. apply CircSum.filter_split. }
        2:{ rewrite keys_qdom; auto. }
        2:{ apply (depends_exten Dd). }
        rewrite (@esum_ext_all _ _ _ _ _ (fun s => kdelta (eqb (map s (keys (qdom rest))) (map (fun _ => 0%nat) rest)) * phi (two s s))).
        2:{ intros s. rewrite (E2 (two s s)) at 1. f_equal. f_equal. rewrite keys_qdom. rewrite (eqb_map s (fun _ => 0%nat)).
            apply Bool.eq_iff_eq_true. unfold alive. rewrite !forallb_forall. unfold rest. split.
            - intros H q Iq. apply filter_In in Iq as [Iq Np]. specialize (H q Iq). rewrite Fin in H. destruct (p q); [discriminate|].
              simpl in H. unfold zero2 in H. rewrite two_k in H. apply andb_true_iff in H. tauto.
            - intros H q Iq. rewrite Fin. destruct (p q) eqn:Pq; auto. simpl. unfold zero2. rewrite two_k, two_b.
              rewrite H; auto. apply filter_In. rewrite Pq; auto. }
        rewrite esum_pin_list.
        - assert (A1 : all_in (qdom rest) (map (fun _ => 0%nat) rest) = true) by (clear; induction rest; simpl; auto).
          rewrite A1, keys_qdom, esum_bits. cbn [kdelta].
          match goal with |- 1 * ?x = _ => transitivity x; [ring|] end.
          apply sumf_ext. intros o Io. apply in_words in Io. unfold channel, amplitude.
          rewrite dbl_wires_out, dbl_wires_in by auto. fold sk psi phi. apply Dr.
          assert (V : forall q, In q Q -> upds (upds env0 rest (map (fun _ => 0%nat) rest)) (filter p Q) o q = place (wires_out Q sk) o q).
          { intros q Iq. change (filter p Q) with (wires_out Q sk). unfold place.
            assert (Z : forall q, upds env0 rest (map (fun _ => 0%nat) rest) q = env0 q).
            { clear. induction rest as [|x r IH]; intros q; auto. simpl. rewrite IH || idtac.
              assert (Z : forall (s : env) r, s q = 0%nat -> upds s r (map (fun _ => 0%nat) r) q = 0%nat).
              { clear. intros s r; revert s. induction r as [|y r IH]; intros s E; simpl; auto. apply IH. unfold upd. destruct (eqb q y); auto. }
              apply Z. unfold upd. destruct (eqb q x); auto. }
            assert (Y : forall ks vs (s t : env), (forall q, s q = t q) -> upds s ks vs q = upds t ks vs q).
            { clear. induction ks as [|k ks IH]; intros [|v vs] s t E; simpl; auto. apply IH. intros x. unfold upd. destruct (eqb x k); auto. }
            apply Y; auto. }
          intros x Ix. apply both_In in Ix as (q & Iq & [->| ->]).
          + rewrite two_k, V by auto. symmetry. apply (@kpart_place (wires_out Q sk) o o q). apply Io.
          + rewrite two_b, V by auto. symmetry. apply (@bpart_place (wires_out Q sk) o o q). apply Io.
        - rewrite keys_app, !keys_qdom. apply (Permutation_NoDup (CircSum.filter_split p Q)); auto.
        - intros x ws Ix. unfold qdom in Ix. apply in_map_iff in Ix as (y & E & _). inversion E; subst. repeat constructor; simpl; intuition discriminate. }
      assert (T2 : T Q psi = kdelta (eqb i i')).
      { unfold T. rewrite (@esum_ext_all _ _ _ _ _ (fun s => basis Q (place (wires_in Q sk) i) s * basis Q (place (wires_in Q sk) i') s)).
        2:{ intros s. unfold psi, basis. rewrite forallb_both, kdelta_andb. f_equal; f_equal; apply same_forallb; intros q.
            - rewrite two_k. f_equal. apply (@kpart_place (wires_in Q sk) i i' q). apply Bi.
            - rewrite two_b. f_equal. apply (@bpart_place (wires_in Q sk) i i' q). apply Bi. }
        rewrite basis_pair; auto.
        - unfold basis. f_equal.
          assert (Nw : NoDup (wires_in Q sk)) by (apply NoDup_filter; auto).
          transitivity (eqb (map (place (wires_in Q sk) i) (wires_in Q sk)) (map (place (wires_in Q sk) i') (wires_in Q sk))).
          + rewrite eqb_map. apply forallb_iff. split; intros H q Iq.
            * apply H. unfold wires_in in Iq. apply filter_In in Iq. tauto.
            * destruct (mem q (wires_in Q sk)) eqn:M; [apply H, mem_In; auto|]. apply mem_false in M. rewrite !place_notin by auto. auto.
          + rewrite !place_map; auto; [apply Bi'|apply Bi].
        - intros q _. apply bits_place; auto.
        - apply basis_depends. }
      congruence.
  Qed.
End Trace.
