(** * Measuring a qubit: the densities of the circuits built *)
From Coq Require Import Sorting.Permutation Sorting.Sorted.
From Verif Require Import Base Scalar NetSpec Sums NetAlg ModelArray ModelTN TNSpec ModelVal ModelOps OpsSpec ModelContract NameOrder CircSpec CircSum CircOrder ModelCircuit CircSem CircShape CircWire
  CircCtrl CircMain CircBuild CircUse DensSpec CircDens CircDensNet CircDensOp CircPure ChanCirc ChanTrace CircFlat FlatSpec CircNest CircNest2 CircNest3 ModelNoise NoisySpec NoiseAdd NoiseAdd2 NoiseAdd4
  MatSpec MeasureSpec MeasEvolve MeasRun MeasExtend MeasFacts.
Set Implicit Arguments.

Section Facts.
  Variable S : scalar.
  Notation op := (op S).
  Local Open Scope K_scope.
  Add Ring K_ring_mf2 : (kring S).

  Lemma one_word (o : op) w q p : op_shape o = Ok [RW w] -> word_at (gate_act (noise_gate o q)) p = if eqb p q then w else [].
  Proof.
    intros E. unfold word_at, noise_gate, gate_act. cbn [gact map_gate snd g_qubits g_op spec_of fst on words]. rewrite (shape_or_eq _ E). cbn. destruct (eqb p q); auto.
  Qed.
  Lemma one_history (o : op) w l p : op_shape o = Ok [RW w] -> NoDup l ->
    history (map (@gate_act S) (map (noise_gate o) l)) p = if mem p l then w else [].
  Proof.
    intros E N. induction N as [|x qs Nx N IH]; auto. cbn [map]. rewrite history_cons, IH, (one_word _ x p E).
    cbn [mem existsb]. destruct (eqb_spec p x) as [->|_]; cbn [orb app]; auto.
    rewrite (proj2 (mem_false x qs) Nx), app_nil_r. auto.
  Qed.
  Definition none_gate (o : op) : name * gate op := (NN, Gate 0%Z [] o).
  Lemma none_word (o : op) p : word_at (gate_act (none_gate o)) p = [].
  Proof. reflexivity. Qed.
  Lemma ends_app u v : v <> [] -> ends_out (u ++ v) = ends_out v.
  Proof.
    intros N. unfold ends_out. induction u as [|a u IH]; auto. cbn [app last]. destruct (u ++ v) eqn:E; [|rewrite <- E in IH |- *; auto].
    apply app_eq_nil in E as [_ E]. contradiction.
  Qed.

  Lemma dens_meas b u v : op_dens (OMeas (S := S) b) [] [u] [] [v] = kdelta (Nat.eqb u (bit b) && Nat.eqb v (bit b)).
  Proof.
    cbn [op_dens op_amp]. unfold of_amp. change (eqb [u] [bit b]) with (Nat.eqb u (bit b) && true). change (eqb [v] [bit b]) with (Nat.eqb v (bit b) && true).
    rewrite !andb_true_r, kconj_delta, kdelta_andb. auto.
  Qed.
  Lemma dens_state b u v : op_dens (OState (S := S) b) [u] [] [v] [] = kdelta (Nat.eqb u (bit b) && Nat.eqb v (bit b)).
  Proof.
    cbn [op_dens op_amp]. unfold of_amp. change (eqb [u] [bit b]) with (Nat.eqb u (bit b) && true). change (eqb [v] [bit b]) with (Nat.eqb v (bit b) && true).
    rewrite !andb_true_r, kconj_delta, kdelta_andb. auto.
  Qed.
  Lemma bit2 b : (bit b < 2)%nat. Proof. destruct b; cbn; lia. Qed.

  Context (tr sc : op) (k : S).
  Hypothesis Wt : op_wf tr.
  Hypothesis Nt : no_super tr.
  Hypothesis Et : op_shape tr = Ok [RW [LI]].
  Hypothesis Dt : forall u v, (u < 2)%nat -> (v < 2)%nat -> op_dens tr [] [u] [] [v] = kdelta (Nat.eqb u v).
  Hypothesis Wk : op_wf sc.
  Hypothesis Nk : no_super sc.
  Hypothesis Ek : op_shape sc = Ok [].
  Hypothesis Dk : op_dens sc [] [] [] [] = k.

  Context (c : circ op) (sh : list role) (N : nat).
  Hypothesis W : op_wf (OCirc c).
  Hypothesis Ns : no_super (OCirc c).
  Hypothesis Es : op_shape (OCirc c) = Ok sh.
  Hypothesis Lf : late_names_free c.
  Hypothesis Rg : register c (range_names N).
  Hypothesis Hin : count role_in sh = 0%nat.
  Notation Q := (range_names N).
  Notation gs := (map (@gate_act S) (in_order c)).
  Notation O := (outs c N).
  Context (l1 l2 : list name) (q : name).
  Hypothesis EO : O = l1 ++ q :: l2.
  Notation l := (l1 ++ l2).
  Notation n := (length (l1 ++ l2)).
  Notation rho := (fun x x' => op_dens (OCirc c) x [] x' []).

  Lemma q_facts : In q Q /\ live c q = true /\ NoDup l /\ ~ In q l /\ incl l Q /\ (forall p, In p l -> live c p = true) /\ (forall p, In p O <-> p = q \/ In p l) /\ length O = Datatypes.S n.
  Proof.
    pose proof (outs_NoDup N W Es Rg) as NO. rewrite EO in NO. assert (Iq : In q O) by (rewrite EO; apply in_app_iff; simpl; auto). apply outs_In in Iq as [I1 I2].
    split; auto. split; auto. split; [apply NoDup_remove_1 in NO; auto|]. split; [apply NoDup_remove_2 in NO; auto|].
    assert (H : forall p, In p O <-> p = q \/ In p l) by (intros p; rewrite EO, !in_app_iff; simpl; intuition congruence).
    split; [|split; [|split]]; auto.
    - intros p Ip. assert (X : In p O) by (apply H; auto). apply outs_In in X as [X _]. auto.
    - intros p Ip. assert (X : In p O) by (apply H; auto). apply outs_In in X as [_ X]. auto.
    - rewrite EO, !app_length. cbn [length]. lia.
  Qed.
  Lemma alt_live p w : live c p = true -> alternating w -> starts_in w = true \/ w = [] -> alternating (history gs p ++ w).
  Proof.
    intros Lv A Hs. destruct (known N W Es Rg) as (_ & Al & _). apply alternating_join. split; auto. split; auto.
    destruct Hs as [Hs| ->]; auto. right; right. unfold live in Lv. rewrite Lv, Hs. auto.
  Qed.
  Lemma alt_dead p : alternating (history gs p ++ []).
  Proof. rewrite app_nil_r. apply (known N W Es Rg). Qed.
  Lemma rho_psi x x' : bits (length O) x -> bits (length O) x' -> rho x x' = psi c N (two (place O x) (place O x')).
  Proof. apply (dens_psi N W Es Rg). Qed.

  (** ** the measured qubit is gone *)
  Definition measured (b : bool) : circ op := [noise_gate (OMeas b) q].
  Definition removed (b : bool) : circ op := [noise_gate (OMeas b) q; none_gate sc].
  Definition kept (b : bool) : circ op := [noise_gate (OMeas b) q; none_gate sc; noise_gate (OState b) q].
  Definition asked : circ op := noise_gate (OMeas true) q :: map (noise_gate tr) l.

  Lemma hist_measured b p : history (map (@gate_act S) (measured b)) p = if eqb p q then [LI] else [].
  Proof. cbn [measured map]. rewrite history_one. apply one_word; auto. Qed.
  Lemma hist_removed b p : history (map (@gate_act S) (removed b)) p = if eqb p q then [LI] else [].
  Proof. cbn [removed map]. rewrite history_cons, history_one, none_word, app_nil_r. apply one_word; auto. Qed.
  Lemma hist_kept b p : history (map (@gate_act S) (kept b)) p = if eqb p q then [LI; LO] else [].
  Proof. cbn [kept map]. rewrite !history_cons, none_word. rewrite (@one_word (OMeas b) [LI]), (@one_word (OState b) [LO]) by auto. destruct (eqb p q); auto. Qed.
  Lemma hist_asked p : history (map (@gate_act S) asked) p = if mem p O then [LI] else [].
  Proof.
    destruct q_facts as (_ & _ & Nl & Nq & _ & _ & HO & _). unfold asked. cbn [map]. rewrite history_cons, (@one_word (OMeas true) [LI]), (one_history _ p Et) by auto.
    assert (E : mem p O = eqb p q || mem p l).
    { apply eq_true_iff_eq. rewrite orb_true_iff, !mem_In, HO. rewrite eqb_eq. tauto. }
    rewrite E. destruct (eqb_spec p q) as [->|_]; cbn [orb app]; auto. rewrite (proj2 (mem_false q l) Nq). auto.
  Qed.

  Lemma filter_first P f : (forall p, In p Q -> f p = P p) -> filter f Q = filter P Q.
  Proof. intros H. apply filter_ext_in. auto. Qed.
  Lemma live_O p : In p Q -> live c p = mem p O.
  Proof. intros Ip. apply eq_true_iff_eq. rewrite mem_In, outs_In. tauto. Qed.
  Lemma l_filter : filter (fun p => live c p && negb (eqb p q)) Q = l.
  Proof.
    assert (E : filter (fun p => live c p && negb (eqb p q)) Q = filter (fun p => negb (eqb p q)) O).
    { unfold outs. generalize (range_names N) as m. induction m as [|a r IH]; auto. cbn [filter]. destruct (live c a) eqn:E1; cbn [andb filter]; auto. destruct (eqb a q) eqn:E2; cbn [negb]; rewrite ?IH; auto. }
    rewrite E, EO. destruct q_facts as (_ & _ & Nl & Nq & _). clear -Nq.
    assert (H : forall m, ~ In q m -> filter (fun p => negb (eqb p q)) m = m).
    { induction m as [|a m IH]; intros N0; auto. cbn [filter]. destruct (eqb_spec a q) as [->|Ne]; [exfalso; apply N0; simpl; auto|]. cbn [negb]. rewrite IH; auto. intros I; apply N0; simpl; auto. }
    rewrite filter_app. cbn [filter]. rewrite eqb_refl. cbn [negb]. rewrite !H; auto; intros I; apply Nq, in_app_iff; auto.
  Qed.

  Lemma measured_ok b : appendable c N (measured b) /\ filter (live' c (measured b)) Q = l.
  Proof.
    destruct q_facts as (Iq & Lq & Nl & Nq & Il & Ll & HO & Len). split; [split|].
    - intros k0 g [E|[]]. injection E as <- <-. cbn [noise_gate g_op g_qubits]. split; [constructor|]. split; [constructor|]. split; [repeat constructor; intros []|]. split; auto. intros p [<-|[]]; auto.
    - intros p. rewrite history_app, hist_measured. destruct (eqb_spec p q) as [->|_]; [|apply alt_dead]. apply alt_live; auto. repeat constructor.
    - rewrite <- l_filter. apply filter_first. intros p Ip. unfold live'. rewrite hist_measured. destruct (eqb p q); [|rewrite app_nil_r, andb_true_r; auto].
      rewrite ends_app by discriminate. rewrite andb_false_r. auto.
  Qed.
  Lemma removed_ok b : appendable c N (removed b) /\ filter (live' c (removed b)) Q = l.
  Proof.
    destruct (measured_ok b) as [[A1 A2] A3]. split; [split|].
    - intros k0 g [E|[E|[]]]; [apply (A1 k0 g); left; auto|]. injection E as <- <-. cbn [none_gate g_op g_qubits]. split; auto. split; auto. split; [constructor|].
      split; [unfold op_len; rewrite Ek; auto|]. intros p [].
    - intros p. specialize (A2 p). rewrite history_app in *. rewrite hist_removed. rewrite hist_measured in A2. auto.
    - rewrite <- A3. apply filter_first. intros p Ip. unfold live'. rewrite hist_removed, hist_measured. auto.
  Qed.
  Lemma kept_ok b : appendable c N (kept b) /\ filter (live' c (kept b)) Q = O.
  Proof.
    destruct q_facts as (Iq & Lq & Nl & Nq & Il & Ll & HO & Len). destruct (removed_ok b) as [[A1 A2] A3]. split; [split|].
    - intros k0 g [E|[E|[E|[]]]]; [apply (A1 k0 g); left; auto|apply (A1 k0 g); right; left; auto|]. injection E as <- <-. cbn [noise_gate g_op g_qubits].
      split; [constructor|]. split; [constructor|]. split; [repeat constructor; intros []|]. split; auto. intros p [<-|[]]; auto.
    - intros p. rewrite history_app, hist_kept. destruct (eqb_spec p q) as [->|_]; [|apply alt_dead]. apply alt_live; auto. cbn; repeat split; discriminate.
    - apply filter_first. intros p Ip. unfold live'. rewrite hist_kept. destruct (eqb_spec p q) as [->|_]; [|rewrite app_nil_r; auto].
      rewrite ends_app by discriminate. rewrite Lq. auto.
  Qed.
  Lemma asked_ok : appendable c N asked /\ filter (live' c asked) Q = [].
  Proof.
    destruct q_facts as (Iq & Lq & Nl & Nq & Il & Ll & HO & Len). destruct (measured_ok true) as [[A1 A2] A3]. split; [split|].
    - intros k0 g [E|I]; [apply (A1 k0 g); left; auto|]. apply in_map_iff in I as (p & E & Ip). injection E as <- <-. cbn [noise_gate g_op g_qubits].
      split; auto. split; auto. split; [repeat constructor; intros []|]. split; [unfold op_len; rewrite Et; auto|]. intros p' [<-|[]]; auto.
    - intros p. rewrite history_app, hist_asked. destruct (mem_spec p O) as [I|_]; [|apply alt_dead]. apply alt_live; [|repeat constructor|auto]. apply outs_In in I. apply I.
    - rewrite (filter_first (fun _ => false)); [clear; generalize (range_names N) as m; induction m; auto|]. intros p Ip. unfold live'. rewrite hist_asked.
      pose proof (live_O p Ip) as E. destruct (mem p O); [rewrite ends_app by discriminate; auto|]. rewrite app_nil_r. auto.
  Qed.

  (** ** the densities *)
  Lemma xc_one (o : op) w p : op_shape o = Ok [RW w] -> xc (noise_gate o p) = CAct [p] [w] (op_dens o).
  Proof. intros E. unfold xc, noise_gate. cbn [snd g_qubits g_op]. rewrite (shape_or_eq _ E). auto. Qed.
  Lemma xc_none : xc (none_gate sc) = CAct [] [] (op_dens sc).
  Proof. unfold xc, none_gate. cbn [snd g_qubits g_op]. rewrite (shape_or_eq _ Ek). auto. Qed.
  Lemma ins_bits m i b y : bits m y -> (b < 2)%nat -> (i <= m)%nat -> bits (Datatypes.S m) (ins i b y).
  Proof.
    intros [L F] Hb Hi. unfold ins. split.
    - rewrite app_length. cbn [length]. rewrite firstn_length, skipn_length. lia.
    - rewrite <- (firstn_skipn i y) in F. apply Forall_app in F as [F1 F2]. apply Forall_app. split; auto.
  Qed.
  Lemma rho_ins b y y' : (b < 2)%nat -> bits n y -> bits n y' ->
    rho (ins (length l1) b y) (ins (length l1) b y') = psi c N (two (upd (place l y) q b) (upd (place l y') q b)).
  Proof.
    intros Hb B B'. destruct q_facts as (Iq & Lq & Nl & Nq & Il & Ll & HO & Len).
    assert (Hl : (length l1 <= n)%nat) by (rewrite app_length; lia).
    rewrite rho_psi by (rewrite Len; apply ins_bits; auto). rewrite EO. apply psi_two with (Q := Q).
    - apply (psi_depends N W Es Rg).
    - intros p _. apply place_ins; auto. destruct B. lia.
    - intros p _. apply place_ins; auto. destruct B'. lia.
  Qed.
  Lemma hist_live (g : circ op) (f : name -> word) : (forall p, history (map (@gate_act S) g) p = if eqb p q then f p else []) ->
    forall p, history (map (@gate_act S) g) p <> [] -> live c p = true.
  Proof. intros E p. rewrite E. destruct (eqb_spec p q) as [->|_]; [intros _; apply (proj1 (proj2 q_facts))|intros X; destruct (X eq_refl)]. Qed.
  Lemma dep_meas b : depends_on (both Q) (evolve (both Q) (dbl (CAct [q] [[LI]] (op_dens (OMeas b)))) (psi c N)).
  Proof. apply evolve_depends. cbn [dbl on c_on]. apply both_incl. intros p [<-|[]]. apply (proj1 q_facts). Qed.
  Lemma zero_env : bitwise Q env0. Proof. intros p _. unfold env0. lia. Qed.
  Lemma place_q y : place l y q = 0%nat.
  Proof. destruct q_facts as (_ & _ & _ & X & _). rewrite place_notin by auto. auto. Qed.
  Lemma meas_on b s s' : bitwise Q s -> bitwise Q s' -> s q = 0%nat -> s' q = 0%nat ->
    evolve (both Q) (dbl (CAct [q] [[LI]] (op_dens (OMeas b)))) (psi c N) (two s s') = psi c N (two (upd s q (bit b)) (upd s' q (bit b))).
  Proof.
    intros B B' Z Z'. apply run_meas; auto using bit2; try apply (proj1 q_facts); [apply known with (1 := W) (2 := Es); auto|intros u v _ _; apply dens_meas|apply (psi_depends N W Es Rg)].
  Qed.

  Theorem asked_value : c_extend asked c = Ok (extended c asked) /\ op_wf (OCirc (extended c asked)) /\ no_super (OCirc (extended c asked)) /\
    exists sh', op_shape (OCirc (extended c asked)) = Ok sh' /\ count role_in sh' = 0%nat /\ count role_out sh' = 0%nat /\
      op_dens (OCirc (extended c asked)) [] [] [] [] = sumf (fun y => rho (ins (length l1) 1 y) (ins (length l1) 1 y)) (words2 n).
  Proof.
    destruct q_facts as (Iq & Lq & Nl & Nq & Il & Ll & HO & Len). destruct asked_ok as [A F].
    destruct (ext_psi W Ns Es Lf Rg Hin A) as (E & Wx & Nx & Rx & sh' & Es' & Ci & Co & Pn & V).
    { intros p. rewrite hist_asked. destruct (mem_spec p O) as [I|_]; [|congruence]. intros _. apply outs_In in I. apply I. }
    split; auto. split; auto. split; auto. exists sh'. split; auto. split; auto. rewrite F in *. split; auto.
    rewrite V by (split; auto; constructor). cbn [place upds]. unfold asked. cbn [map].
    match goal with |- run ?Q (?x :: ?l) ?p ?e = _ => change (run Q (x :: l) p e) with (run Q l (evolve Q x p) e) end.
    rewrite (xc_one _ _ (eq_refl (op_shape (OMeas true)))). rewrite !map_map.
    rewrite (map_ext _ (fun p => dbl (CAct [p] [[LI]] (op_dens tr)))) by (intros p; rewrite (xc_one _ _ Et); auto).
    change (place [] []) with (@env0 name). rewrite run_traces; auto using zero_env, dep_meas.
    - apply sumf_ext. intros y Iy. apply in_bits in Iy. fold (place l y).
      rewrite meas_on; [|eapply place_bitwise; eauto|eapply place_bitwise; eauto|apply place_q|apply place_q].
      symmetry. apply rho_ins; auto.
    - apply known with (1 := W) (2 := Es); auto.
  Qed.
  Theorem removed_value b : c_extend (removed b) c = Ok (extended c (removed b)) /\ op_wf (OCirc (extended c (removed b))) /\ no_super (OCirc (extended c (removed b))) /\
    register (extended c (removed b)) Q /\
    exists sh', op_shape (OCirc (extended c (removed b))) = Ok sh' /\ count role_in sh' = 0%nat /\ count role_out sh' = n /\
      forall y y', bits n y -> bits n y' -> op_dens (OCirc (extended c (removed b))) y [] y' [] = k * rho (ins (length l1) (bit b) y) (ins (length l1) (bit b) y').
  Proof.
    destruct q_facts as (Iq & Lq & Nl & Nq & Il & Ll & HO & Len). destruct (removed_ok b) as [A F].
    destruct (ext_psi W Ns Es Lf Rg Hin A) as (E & Wx & Nx & Rx & sh' & Es' & Ci & Co & Pn & V).
    { apply (hist_live _ (fun _ => [LI]) (hist_removed b)). }
    split; auto. split; auto. split; auto. split; auto. exists sh'. split; auto. split; auto. rewrite F in *. split; auto.
    intros y y' B B'. rewrite V by auto. unfold removed. cbn [map].
    match goal with |- run ?Q (?x :: ?z :: []) ?p ?e = _ => change (run Q (x :: z :: []) p e) with (evolve Q z (evolve Q x p) e) end.
    rewrite (xc_one _ _ (eq_refl (op_shape (OMeas b)))), xc_none.
    assert (Bp : forall z, bits n z -> bitwise Q (place l z)) by (intros z Bz; eapply place_bitwise; eauto).
    rewrite evolve_none; [|apply known with (1 := W) (2 := Es); auto|apply dep_meas|apply two_bits; auto].
    rewrite Dk, meas_on by auto using place_q. f_equal. symmetry. apply rho_ins; auto using bit2.
  Qed.
  Theorem kept_value b : c_extend (kept b) c = Ok (extended c (kept b)) /\ op_wf (OCirc (extended c (kept b))) /\ no_super (OCirc (extended c (kept b))) /\
    register (extended c (kept b)) Q /\
    exists sh', op_shape (OCirc (extended c (kept b))) = Ok sh' /\ count role_in sh' = 0%nat /\ count role_out sh' = Datatypes.S n /\
      forall x x', bits (Datatypes.S n) x -> bits (Datatypes.S n) x' -> op_dens (OCirc (extended c (kept b))) x [] x' [] =
        if Nat.eqb (nth (length l1) x 0%nat) (bit b) && Nat.eqb (nth (length l1) x' 0%nat) (bit b) then k * rho x x' else k0.
  Proof.
    destruct q_facts as (Iq & Lq & Nl & Nq & Il & Ll & HO & Len). destruct (kept_ok b) as [A F].
    destruct (ext_psi W Ns Es Lf Rg Hin A) as (E & Wx & Nx & Rx & sh' & Es' & Ci & Co & Pn & V).
    { apply (hist_live _ (fun _ => [LI; LO]) (hist_kept b)). }
    split; auto. split; auto. split; auto. split; auto. exists sh'. split; auto. split; auto. rewrite F, Len in *. split; auto.
    intros x x' B B'. rewrite V by auto. unfold kept. cbn [map].
    match goal with |- run ?Q (?x :: ?z :: ?w :: []) ?p ?e = _ => change (run Q (x :: z :: w :: []) p e) with (evolve Q w (evolve Q z (evolve Q x p)) e) end.
    rewrite (xc_one _ _ (eq_refl (op_shape (OMeas b)))), (xc_one _ _ (eq_refl (op_shape (OState b)))), xc_none.
    assert (NQ : NoDup Q) by (apply known with (1 := W) (2 := Es); auto).
    assert (Bp : forall z, bits (Datatypes.S n) z -> bitwise Q (place O z)) by (intros z Bz; eapply place_bitwise; eauto).
    assert (Bu : forall s, bitwise Q s -> bitwise Q (upd s q 0%nat)) by (intros s Bs p Ip; unfold upd; destruct (eqb p q); [lia|auto]).
    assert (En : forall z, bits (Datatypes.S n) z -> place O z q = nth (length l1) z 0%nat).
    { intros z [Lz _]. apply place_nth; [apply (outs_NoDup N W Es Rg)| |rewrite Len; auto]. rewrite EO. rewrite nth_error_app2, Nat.sub_diag by lia. auto. }
    rewrite (@run_state S Q NQ _ (bit b)); auto; [|intros u v _ _; apply dens_state|].
    2: { apply evolve_depends. intros p []. }
    rewrite !En by auto. destruct (_ && _) eqn:Eb; [|cbn [kdelta]; ring]. cbn [kdelta].
    rewrite evolve_none; [|auto|apply dep_meas|apply two_bits; auto].
    rewrite Dk, meas_on by (auto; apply upd_eq).
    rewrite rho_psi by (rewrite Len; auto).
    assert (X : psi c N (two (upd (upd (place O x) q 0%nat) q (bit b)) (upd (upd (place O x') q 0%nat) q (bit b))) = psi c N (two (place O x) (place O x'))); [|rewrite X; ring].
    apply andb_true_iff in Eb as [E1 E2]. apply Nat.eqb_eq in E1, E2.
    apply psi_two with (Q := Q); [apply (psi_depends N W Es Rg)| |]; intros p _; destruct (eqb_spec p q) as [->|Ne]; rewrite ?upd_eq, ?upd_neq, ?En by auto; auto.
  Qed.
End Facts.
