(** The conversion of every pure operation has the amplitudes of the operation. *)
From Coq Require Import Sorting.Permutation Sorting.Sorted.
From Verif Require Import Base Scalar NetSpec Sums NetAlg ModelArray ModelTN TNInv TNOps TNSpec TNValue TNExact TNEdit
  TNEdit2 ModelVal ModelOps OpsSpec OpsProofs OpsValue ModelContract ContractExec NameOrder CircSpec CircSum CircOrder
  ModelCircuit CircSem CircShape CircWire CircStep CircNet CircCtrl CircWhen CircOp.
Set Implicit Arguments.

Section Main.
  Variable S : scalar.
  Notation tval := (tval S).
  Notation op := (op S).
  Local Open Scope K_scope.
  Add Ring Kring_main : (kring S).
  Notation acts c := (map (fun p => gact (snd p)) c).

  (** what the specification sees of an operation *)
  Definition spec_of (a : op) : list role * ampl S := (shape_or a, op_amp a).

  Lemma shape_or_eq (a : op) sh : op_shape a = Ok sh -> shape_or a = sh.
  Proof. unfold shape_or. intros ->; auto. Qed.
  Lemma op_len_shape (a : op) n : op_len a = Ok n -> op_shape a = Ok (shape_or a) /\ length (shape_or a) = n.
  Proof.
    unfold op_len, shape_or. destruct (op_shape a) as [s|e]; simpl; intros E; inversion E; auto.
  Qed.
  Lemma shape_circ (c : circ op) : op_shape (OCirc c) = circ_shape (map_circ (@op_shape S) c).
  Proof. simpl. f_equal. apply map_ext. intros [k [t q a]]; reflexivity. Qed.
  Lemma amp_circ (c : circ op) : op_amp (OCirc c) = circ_amp (map_circ spec_of c).
  Proof. simpl. f_equal. apply map_ext. intros [k [t q a]]; reflexivity. Qed.
  Lemma conv_circ (c : circ op) : conv (OCirc c) None = circ_net (map_circ (fun a => info_of a (conv a None)) c).
  Proof. simpl. f_equal. apply map_ext. intros [k [t q a]]; reflexivity. Qed.
  Definition ctl_net (cond : bool) (c : circ op) : res tval :=
    do qs <- all_qubits c;
    do cc <- ctrl_circ qs (map_circ (fun a => ctl_info a (conv a (Some cond))) c) [];
    circ_net cc.
  Lemma ctl_net_map cond (c : circ op) :
    map (fun p => match p with (k, Gate t q a) => (k, Gate t q (ctl_info a (conv a (Some cond)))) end) c =
    map_circ (fun a => ctl_info a (conv a (Some cond))) c.
  Proof. apply map_ext. intros [k [t q a]]; reflexivity. Qed.
  Lemma conv_circ_ctl cond (c : circ op) :
    conv (OCirc c) (Some cond) = do _ <- may_control (op_pure (OCirc c)) (op_shape (OCirc c)); ctl_net cond c.
  Proof. unfold ctl_net. rewrite <- ctl_net_map. reflexivity. Qed.
  Lemma conv_ccirc cond (c : circ op) : conv (OCCirc cond c) None = ctl_net cond c.
  Proof. unfold ctl_net. rewrite <- ctl_net_map. reflexivity. Qed.

  Lemma pure_circ (c : circ op) : op_pure (OCirc c) = Ok true ->
    (exists sh, op_shape (OCirc c) = Ok sh) /\ forall k g, In (k, g) c -> op_pure (g_op g) = Ok true.
  Proof.
    cbn [op_pure]. intros E. destruct (op_shape (OCirc c)) as [sh|e] eqn:Es.
    2:{ destruct e; simpl in E; discriminate. }
    split; [eauto|]. simpl in E. clear Es. induction c as [|[k [t q a]] r IH]; [intros ? ? []|].
    destruct (op_pure a) as [b|] eqn:Ea; simpl in E; [|discriminate].
    match type of E with (do w <- ?X; _) = _ => destruct X as [w|] eqn:Ew end; simpl in E; [|discriminate].
    inversion E as [E']. apply andb_prop in E' as [-> ->].
    intros k' g [X|X]; [inversion X; subst; auto|eauto].
  Qed.

  (** the facts about a circuit that was built and has a shape *)
  Definition gates_ok (c : circ op) : Prop :=
    forall k g, In (k, g) c -> NoDup (g_qubits g) /\ op_len (g_op g) = Ok (length (g_qubits g)).
  Lemma gates_ok_shapes (c : circ op) : gates_ok c ->
    map_circ (@op_shape S) c = shapes (map_circ spec_of c) /\ circ_ok (map_circ spec_of c).
  Proof.
    intros H. split.
    - unfold shapes. rewrite map_circ_map. unfold map_circ. apply map_ext_in. intros [k g] I.
      destruct (H k g I) as [_ L]. apply op_len_shape in L as [L _]. unfold map_gate; simpl. rewrite L; auto.
    - unfold circ_ok, map_circ. rewrite Forall_map. apply Forall_forall. intros [k g] I.
      destruct (H k g I) as [N L]. apply op_len_shape in L as [_ L]. split; simpl; auto.
  Qed.
  Lemma circ_facts (c : circ op) sh : gates_ok c -> op_shape (OCirc c) = Ok sh ->
    let gs := circ_acts (map_circ spec_of c) in
    exists Q, all_qubits c = Ok Q /\ apart_ok (map_circ spec_of c) /\ alt_ok (map_circ spec_of c) /\
      circ_ok (map_circ spec_of c) /\ length sh = length Q /\
      count role_out sh = length (wires_out Q gs) /\ count role_in sh = length (wires_in Q gs) /\
      op_amp (OCirc c) = amplitude Q gs.
  Proof.
    intros G E gs. destruct (gates_ok_shapes G) as [Es Gk]. rewrite shape_circ, Es in E.
    pose proof (circ_shape_spec Gk) as Sp. rewrite E in Sp. destruct Sp as (Ap & Al & Q & AQ & Esh).
    exists Q. assert (AQ' := AQ). rewrite all_qubits_map in AQ'. split; auto. split; auto. split; auto. split; auto.
    split; [rewrite Esh, map_length; auto|]. fold gs in Esh.
    assert (Alq : forall q, alternating (history gs q)) by apply Al.
    rewrite Esh, !count_truncate.
    - split; auto. split; auto. rewrite amp_circ. unfold circ_amp. rewrite AQ. reflexivity.
    - intros q. simpl. apply truncate_shape; auto.
    - intros q. simpl. apply truncate_shape; auto.
  Qed.

  Lemma means_op (a : op) sh : op_shape a = Ok sh -> tensor_ok (conv a None) sh (op_amp a) ->
    means (info_of a (conv a None)) sh (op_amp a).
  Proof.
    intros E T. split; auto. simpl. destruct a; simpl fix_of; cbv beta iota; auto.
    - simpl in E. inversion E; subst. split; auto. split; [destruct b; lia|]. intros x. simpl.
      assert (C : eqb [x] [bit b] = Nat.eqb x (if b then 1 else 0)) by (unfold bit; simpl; destruct b; apply andb_true_r). rewrite C; auto.
    - simpl in E. inversion E; subst. split; auto. split; [destruct b; lia|]. intros x. simpl.
      assert (C : eqb [x] [bit b] = Nat.eqb x (if b then 1 else 0)) by (unfold bit; simpl; destruct b; apply andb_true_r). rewrite C; auto.
  Qed.

  Lemma controllable_shape (a : op) : controllable a -> exists sh, op_shape a = Ok sh /\ forallb role_unitary sh = true.
  Proof. destruct 1; eauto; eexists; simpl; eauto. Qed.
  Lemma unitary_words sh q qs : forallb role_unitary sh = true -> length qs = length sh -> In q qs ->
    get q (combine qs (map role_word sh)) = Some [LI; LO].
  Proof.
    revert qs. induction sh as [|r sh IH]; intros [|x qs] U L I; simpl in *; try tauto; try discriminate.
    apply andb_prop in U as [U1 U2]. destruct (eqb_spec q x) as [->|N].
    - destruct (unitary_eq _ U1) as [-> | ->]; auto.
    - destruct I as [->|I]; [congruence|]. apply IH; auto.
  Qed.
  Lemma gact_through t q (a : op) sh : op_shape a = Ok sh -> forallb role_unitary sh = true -> length q = length sh ->
    through (gact (Gate t q (spec_of a))).
  Proof.
    intros E U L x I. unfold word_at. simpl in *. rewrite (shape_or_eq _ E), unitary_words; auto.
  Qed.

  (** ** circuits *)
  Definition pure_ok (o : op) : Prop := op_pure o = Ok true -> exists sh, op_shape o = Ok sh /\ tensor_ok (conv o None) sh (op_amp o).
  Definition ctl_ok (o : op) : Prop := controllable o -> op_pure o = Ok true -> forall cond sh, op_shape o = Ok sh ->
    tensor_ok (conv o (Some cond)) (RC :: sh) (when_amp cond (op_amp o)).

  Lemma conv_circ_ok (c : circ op) : NoDup (keys c) -> gates_ok c -> (forall k g, In (k, g) c -> pure_ok (g_op g)) -> pure_ok (OCirc c).
  Proof.
    intros N G IH P. destruct (pure_circ _ P) as [(sh & Es) Pg]. exists sh. split; auto.
    destruct (circ_facts G Es) as (Q & AQ & Ap & Al & Gk & _ & Co & Ci & Am).
    rewrite Am. rewrite conv_circ. unfold tensor_ok. rewrite Co, Ci.
    apply (@circ_net_spec S op (fun a => info_of a (conv a None)) spec_of c Q); auto.
    - apply Forall_forall. intros [k g] I. destruct (G k g I) as [Nq L]. apply op_len_shape in L as [L1 L2].
      split; [|split; auto]. simpl. apply means_op; auto. destruct (IH k g I (Pg k g I)) as (sh' & E' & T).
      rewrite (shape_or_eq _ E'). auto.
    - apply Forall_forall. intros [k g] I. unfold pure_gate. simpl. eauto.
  Qed.

  Definition ctl_spec (cond : bool) (a : op) : list role * ampl S := (RC :: shape_or a, when_amp cond (op_amp a)).
  Lemma ctl_seq_acts cond Q : forall (c : circ op) k,
    acts (map_circ (ctl_spec cond) (ctl_seq Q k c)) =
    map (ctl (NI 0) cond) (map (ract (shifted Q)) (acts (map_circ spec_of c))).
  Proof. induction c as [|[x g] r IH]; intros k; cbn [ctl_seq map_circ map]; [auto|]. f_equal. apply IH. Qed.

  Lemma ctl_net_ok cond (c : circ op) sh : gates_ok c -> c <> [] -> StronglySorted (@earlier S) c ->
    op_shape (OCirc c) = Ok sh -> forallb role_unitary sh = true ->
    (forall k g, In (k, g) c -> controllable (g_op g) /\
       tensor_ok (conv (g_op g) (Some cond)) (RC :: shape_or (g_op g)) (when_amp cond (op_amp (g_op g)))) ->
    tensor_ok (ctl_net cond c) (RC :: sh) (when_amp cond (op_amp (OCirc c))).
  Proof.
    intros G Ne Ss Es U IH.
    destruct (circ_facts G Es) as (Q & AQ & Ap & Al & Gk & LQ & Co & Ci & Am).
    destruct (all_qubits_spec _ AQ) as (NQ & SQ & MQ).
    assert (Hinc : forall k g, In (k, g) c -> incl (g_qubits g) Q).
    { intros k g I q Iq. apply MQ, qubits_In. exists (k, g); auto. }
    set (Q' := NI 0 :: map (shifted Q) Q).
    assert (NQ' : NoDup Q').
    { unfold Q'. constructor; [apply shifted_0|]. apply map_inj_NoDup with (Q := Q); auto using incl_refl.
      intros x y. apply shifted_inj. }
    unfold ctl_net. rewrite AQ. cbn [bind].
    rewrite (@ctrl_circ_eq S op (fun a => ctl_info a (conv a (Some cond))) Q c [] 0); [|simpl; lia|simpl; lia|auto|simpl; tauto|].
    2:{ intros x g I. destruct (G x g I) as [N L]. apply op_len_shape in L as [L1 L2]. split; auto. split; [eauto|].
        eexists. simpl. rewrite L1. simpl. split; [reflexivity|]. simpl. auto. }
    cbn [app bind].
    set (c' := ctl_seq Q 0 c).
    assert (Hc' : forall k g, In (k, g) c' -> exists k0 g0, In (k0, g0) c /\ g_qubits g = ctl_qubits Q (g_qubits g0) /\ g_op g = g_op g0).
    { intros k g I. apply ctl_seq_In in I as (k0 & g0 & I & E). exists k0, g0. auto. }
    assert (AQ' : all_qubits c' = Ok Q').
    { apply all_qubits_is; auto; [apply shifted_sorted; auto|]. intros q. rewrite qubits_In. split.
      - intros [<-|Iq].
        + destruct c as [|[k g] r]; [congruence|]. eexists. split; [left; reflexivity|]. simpl; auto.
        + apply in_map_iff in Iq as (x & <- & Ix). apply MQ, qubits_In in Ix as ([k g] & I & Ix).
          destruct (@ctl_seq_In' _ Q c 0%Z k g I) as (p & Ip & Ep & _). exists p. split; auto. rewrite Ep. right.
          apply in_map_iff. exists x; auto.
      - intros ([k g] & I & Iq). destruct (Hc' k g I) as (k0 & g0 & I0 & Eq & _). simpl in Iq. rewrite Eq in Iq.
        destruct Iq as [<-|Iq]; [left; auto|]. right. apply in_map_iff in Iq as (x & <- & Ix). apply in_map_iff. exists x. split; auto.
        eapply Hinc; eauto. }
    assert (T0 : Forall (fun g => NoDup (on g) /\ incl (on g) Q /\ through g) (acts (map_circ spec_of c))).
    { unfold map_circ. rewrite !Forall_map. apply Forall_forall. intros [k g] I. destruct (G k g I) as [N L].
      apply op_len_shape in L as [L1 L2]. simpl. split; auto. split; [eapply Hinc; eauto|].
      destruct (IH k g I) as [Cg _]. destruct (controllable_shape Cg) as (s & Es' & Us).
      apply gact_through with (sh := s); auto. rewrite (shape_or_eq _ Es') in L2. auto. }
    set (ra := map (ract (shifted Q)) (acts (map_circ spec_of c))).
    assert (T1 : Forall (fun g => NoDup (on g) /\ incl (on g) (map (shifted Q) Q) /\ through g) ra).
    { unfold ra. rewrite Forall_map. eapply Forall_impl; [|exact T0]. intros g (N & I & T). split; [|split].
      - simpl. apply map_inj_NoDup with (Q := Q); auto. intros x y; apply shifted_inj.
      - simpl. intros x Ix. apply in_map_iff in Ix as (y & <- & Iy). apply in_map; auto.
      - intros x Ix. simpl in Ix. apply in_map_iff in Ix as (y & <- & Iy).
        rewrite (@word_ract S (shifted Q) Q); auto. intros a b; apply shifted_inj. }
    assert (Egs : acts (map_circ (ctl_spec cond) c') = map (ctl (NI 0) cond) ra) by apply ctl_seq_acts.
    assert (T2 : Forall (fun g => through g) (map (ctl (NI 0) cond) ra)).
    { rewrite Forall_map. eapply Forall_impl; [|exact T1]. intros g (N & I & T). apply ctl_through; auto.
      intros X. apply I in X. apply shifted_0 in X; auto. }
    assert (Sorted' : StronglySorted (@gate_le _) (map_circ (ctl_spec cond) c')).
    { pose proof (ctl_seq_sorted Q c 0) as H. fold c' in H. revert H. generalize c'.
      induction 1 as [|p l S1 IH1 F]; simpl; constructor; auto. unfold map_circ. rewrite Forall_map. eapply Forall_impl; [|exact F].
      intros a La. unfold gate_le. cbn in *. apply Z.lt_le_incl. exact La. }
    assert (Apart' : apart_ok (map_circ (ctl_spec cond) c')).
    { pose proof (ctl_seq_sorted Q c 0) as H. fold c' in H. revert H. unfold apart_ok, tacts. generalize c'.
      induction 1 as [|p l S1 IH1 F]; simpl; constructor; auto. unfold map_circ. rewrite !Forall_map. eapply Forall_impl; [|exact F].
      intros a La E. cbn in E, La. rewrite E in La. destruct (Z.lt_irrefl _ La). }
    assert (Hist : forall q, history (circ_acts (map_circ (ctl_spec cond) c')) q = history (map (ctl (NI 0) cond) ra) q).
    { intros q. rewrite <- Egs. apply order_history; auto. }
    assert (Alt' : alt_ok (map_circ (ctl_spec cond) c')).
    { intros q. rewrite Hist. destruct (@history_through S (map (ctl (NI 0) cond) ra) q T2) as [->|(_ & _ & A)]; simpl; auto. }
    assert (Used : forall q, In q Q -> exists g, In g (acts (map_circ spec_of c)) /\ In q (on g)).
    { intros q Iq. apply MQ, qubits_In in Iq as ([k g] & I & Iq). eexists. split.
      - apply in_map_iff. eexists. split; [reflexivity|]. unfold map_circ. apply in_map_iff. exists (k, g). split; [reflexivity|auto].
      - simpl. auto. }
    assert (Used1 : forall q, In q (map (shifted Q) Q) -> exists g, In g ra /\ In q (on g)).
    { intros q Iq. apply in_map_iff in Iq as (x & <- & Ix). destruct (Used x Ix) as (g & Ig & Ix').
      exists (ract (shifted Q) g). split; [apply in_map; auto|]. simpl. apply in_map; auto. }
    assert (Used2 : forall q, In q Q' -> exists g, In g (map (ctl (NI 0) cond) ra) /\ In q (on g)).
    { intros q [<-|Iq].
      - destruct ra as [|g r] eqn:Er.
        + unfold ra in Er. destruct c as [|p r]; [congruence|discriminate].
        + eexists. split; [left; reflexivity|]. simpl; auto.
      - destruct (Used1 q Iq) as (g & Ig & Iq'). exists (ctl (NI 0) cond g). split; [apply in_map; auto|simpl; auto]. }
    destruct (@wires_all S Q' (map (ctl (NI 0) cond) ra) T2 Used2) as [Wi Wo].
    assert (Wi' : wires_in Q' (circ_acts (map_circ (ctl_spec cond) c')) = Q').
    { rewrite <- Wi at 2. unfold wires_in. apply filter_ext. intros q. rewrite Hist; auto. }
    assert (Wo' : wires_out Q' (circ_acts (map_circ (ctl_spec cond) c')) = Q').
    { rewrite <- Wo at 2. unfold wires_out. apply filter_ext. intros q. rewrite Hist; auto. }
    destruct (@circ_net_spec S op (fun a => ctl_info a (conv a (Some cond))) (ctl_spec cond) c' Q') as (v & Ev & Cv & Shv & Vv); auto.
    { apply Forall_forall. intros [k g] I. destruct (Hc' k g I) as (k0 & g0 & I0 & Eq & Eo).
      destruct (G k0 g0 I0) as [N L]. apply op_len_shape in L as [L1 L2]. unfold good. simpl snd. rewrite Eq, Eo. split; [|split].
      - split; [simpl; rewrite L1; auto|]. simpl. apply IH with (k := k0); auto.
      - apply ctl_qubits_NoDup; auto. eapply Hinc; eauto.
      - simpl. rewrite map_length. auto. }
    { apply Forall_forall. intros [k g] I. reflexivity. }
    { apply ctl_seq_keys. }
    rewrite Wi', Wo' in *.
    assert (LQ' : length Q' = Datatypes.S (length sh)) by (unfold Q'; simpl; rewrite map_length; auto).
    assert (Co' : count role_out (RC :: sh) = length Q').
    { rewrite LQ'. unfold count. simpl. f_equal. apply unitary_all; auto using unitary_out. }
    assert (Ci' : count role_in (RC :: sh) = length Q').
    { rewrite LQ'. unfold count. simpl. f_equal. apply unitary_all; auto using unitary_in. }
    exists v. rewrite Co', Ci'. split; auto. split; auto. split; auto.
    intros o i Bo Bi. rewrite Vv by auto.
    rewrite (@order_amplitude S Q' (map_circ (ctl_spec cond) c') (map_circ (ctl_spec cond) c')); auto.
    2:{ unfold circ_ok, map_circ. rewrite Forall_map. apply Forall_forall. intros [k g] I.
        destruct (Hc' k g I) as (k0 & g0 & I0 & Eq & Eo). destruct (G k0 g0 I0) as [N L]. apply op_len_shape in L as [L1 L2].
        split; simpl; rewrite Eq; [apply ctl_qubits_NoDup; auto; eapply Hinc; eauto|]. simpl. rewrite Eo, map_length; auto. }
    2:{ intros p Ip. unfold map_circ in Ip. apply in_map_iff in Ip as ([k g] & <- & I).
        destruct (Hc' k g I) as (k0 & g0 & I0 & Eq & Eo). simpl. rewrite Eq. intros q [<-|Iq]; [left; auto|].
        right. apply in_map_iff in Iq as (x & <- & Ix). apply in_map_iff. exists x. split; auto. eapply Hinc; eauto. }
    2:{ rewrite Wo'. auto. }
    rewrite Egs. rewrite LQ', LQ in Bo, Bi.
    apply bits_S in Bo as (b & y & -> & Bb & Bo). apply bits_S in Bi as (b' & z & -> & Bb' & Bi).
    assert (LM : length (map (shifted Q) Q) = length Q) by apply map_length.
    unfold Q'. rewrite amplitude_ctl; auto.
    2:{ unfold ra. destruct c; [congruence|discriminate]. }
    2:{ rewrite LM; auto. }
    2:{ rewrite LM; auto. }
    rewrite Am. unfold when_amp. 
    assert (T00 : Forall (@through S) (acts (map_circ spec_of c))) by (eapply Forall_impl; [|exact T0]; intros g (?&?&?); auto).
    destruct (@wires_all S Q (acts (map_circ spec_of c)) T00 Used) as [Wi0 Wo0].
    assert (SsM : StronglySorted (@gate_le _) (map_circ spec_of c)).
    { revert Ss. generalize c. induction 1 as [|p l S1 IH1 F]; simpl; constructor; auto.
      unfold map_circ. rewrite Forall_map. exact F. }
    assert (Ea : amplitude (map (shifted Q) Q) ra y z = amplitude Q (circ_acts (map_circ spec_of c)) y z).
    { unfold ra. rewrite (@amplitude_ract S (shifted Q) Q); auto.
      - symmetry. apply order_amplitude; auto.
        + intros p Ip. unfold map_circ in Ip. apply in_map_iff in Ip as ([k g] & <- & I). simpl. eapply Hinc; eauto.
        + rewrite <- Co. rewrite (unitary_all _ role_out U unitary_out). rewrite LQ; auto.
      - intros x1 x2. apply shifted_inj.
      - intros g Ig. rewrite Forall_forall in T0. apply T0; auto.
      - rewrite Wo0; auto.
      - rewrite Wi0; auto. }
    rewrite Ea. reflexivity.
  Qed.

  (** ** superpositions *)
  Lemma Forall_cut {X} (P : X -> Prop) n l : Forall P l -> Forall P (firstn n l) /\ Forall P (skipn n l).
  Proof. intros F. rewrite <- (firstn_skipn n l) in F. apply Forall_app in F; auto. Qed.
  Lemma positions_count p (sh : list role) : length (positions p sh) = count p sh.
  Proof.
    unfold positions, count. rewrite map_length. generalize 0%nat. induction sh as [|r sh IH]; intros k; simpl; auto.
    destruct (p r); simpl; auto.
  Qed.
  Lemma uncontrol_count p sh : (forall r, p (uncontrol r) = p r) -> count p (map uncontrol sh) = count p sh.
  Proof. intros H. unfold count. induction sh as [|r sh IH]; simpl; auto. rewrite H. destruct (p r); simpl; auto. Qed.
  Lemma conv_super (l : list (S * op)) :
    conv (OSuper l) None = super_terms 0 (map (fun p => (fst p, conv (snd p) None)) l) (ts_empty S).
  Proof. simpl. f_equal. apply map_ext. intros [c a]; auto. Qed.
  Lemma amp_super (l : list (S * op)) o i : op_amp (OSuper l) o i = sumf (fun p => fst p * op_amp (snd p) o i) l.
  Proof. simpl. apply sumf_ext. intros [c a] _; auto. Qed.

  Lemma super_ok l ins outs : l <> [] ->
    (forall c a, In (c, a) l -> pure_ok a) -> (forall c a, In (c, a) l -> op_pure a = Ok true) ->
    (forall c a, In (c, a) l -> exists sh, op_shape a = Ok sh /\ positions role_in sh = ins /\ positions role_out sh = outs) ->
    exists sh, op_shape (OSuper l) = Ok sh /\ count is_ctrl sh = 0%nat /\ tensor_ok (conv (OSuper l) None) sh (op_amp (OSuper l)).
  Proof.
    intros Ne IH Pu Po.
    assert (Sh : exists sh, op_shape (OSuper l) = Ok sh /\ count is_ctrl sh = 0%nat /\ count role_in sh = length ins /\ count role_out sh = length outs).
    { destruct l as [|[c a] l]; [congruence|]. destruct (Po c a) as (sh & E & <- & <-); [simpl; auto|].
      exists (map uncontrol sh). simpl. rewrite E. simpl. split; auto. split.
      - unfold count. clear. induction sh as [|[|w] sh IH]; simpl; auto.
      - rewrite !positions_count, !uncontrol_count; auto; intros [|]; auto. }
    destruct Sh as (sh & Esh & Nc & Ci & Co). exists sh. split; auto. split; auto.
    rewrite conv_super. unfold tensor_ok. rewrite Ci, Co. set (m := (length outs + length ins)%nat).
    destruct (@super_terms_spec S m (map (fun p => (fst p, conv (snd p) None)) l)
                (map (fun p => (fst p, fun x => op_amp (snd p) (firstn (length outs) x) (skipn (length outs) x))) l) 0 [] None)
      as (v & Ev & Cv & Sv & Vv); auto.
    - clear Ne Esh. induction l as [|[c a] l IHl]; simpl; constructor.
      + simpl. split; auto. destruct (Po c a) as (s & Es & Hi & Ho); [simpl; auto|].
        destruct (IH c a) as (s' & Es' & v & Ev & Cv & Sv & Vv); [simpl; auto|eapply Pu; simpl; eauto|].
        rewrite Es in Es'. inversion Es'; subst s'. exists v. split; auto. split; auto.
        rewrite <- !positions_count, Hi, Ho in Sv, Vv. split; auto. intros x [Lx Fx].
        rewrite <- (firstn_skipn (length outs) x) at 1. apply Vv.
        * split; [rewrite firstn_length; unfold m in Lx; lia|]. apply Forall_cut; auto.
        * split; [rewrite skipn_length; unfold m in Lx; lia|]. apply Forall_cut; auto.
      + apply IHl; [intros c' a' I; apply (IH c' a'); simpl; auto|intros c' a' I; apply (Pu c' a'); simpl; auto|intros c' a' I; apply (Po c' a'); simpl; auto].
    - constructor.
    - simpl; tauto.
    - right. destruct l; [congruence|discriminate].
    - exists v. split; auto. split; auto. split; auto. intros o i [Lo Fo] [Li Fi].
      rewrite Vv by (apply bits_app; split; auto). rewrite amp_super. simpl. rewrite sumf_map. 
      replace (0 + sumf (fun x => fst (fst x, fun x0 : list nat => op_amp (snd x) (firstn (length outs) x0) (skipn (length outs) x0)) *
         snd (fst x, fun x0 : list nat => op_amp (snd x) (firstn (length outs) x0) (skipn (length outs) x0)) (o ++ i)) l)
       with (sumf (fun p => fst p * op_amp (snd p) o i) l); auto.
      simpl. transitivity (0 + sumf (fun p => fst p * op_amp (snd p) o i) l); [ring|]. f_equal. apply sumf_ext. intros p _.
      rewrite <- Lo, firstn_app, firstn_all, Nat.sub_diag, firstn_O, app_nil_r, skipn_app, skipn_all, Nat.sub_diag, skipn_O. auto.
  Qed.

  (** ** all operations *)
  Theorem conv_ok (o : op) : op_wf o -> pure_ok o /\ ctl_ok o.
  Proof.
    induction 1 as [sa sh d Cd Nc Sd|sa sh d Cd Sd|b|b|sh d Cd Nc Sd|l ins outs Ne W IH Pu Po|c N W IH G|cond c W [IH1 IH2] Pc Cc].
    - assert (Lo := count_out sh). assert (Li := count_in sh). split.
      + intros _. exists sh. split; auto. exists d. split; auto. split; auto. split; auto.
        rewrite Lo, Li, Nc, Sd. f_equal. lia.
      + intros C _ cond sh' E. simpl in E. inversion E; subst sh'. inversion C as [? ? ? U| | |]; subst.
        simpl. rewrite U. simpl. apply stacked_spec; auto. intros o i Bo Bi. apply ctrl_amp_pure; auto.
        * rewrite (unitary_all _ role_out U unitary_out); auto.
        * rewrite (unitary_all _ role_in U unitary_in); auto.
    - split.
      + intros _. exists sh. split; auto. destruct (@ctrl_net_spec S sh d Sd) as (v & E & C & Sv & Vv). exists v. simpl. auto.
      + intros C _ cond sh' E. simpl in E. inversion E; subst sh'. inversion C as [|? ? ? U| |]; subst.
        simpl. rewrite U. simpl. apply stacked_spec; auto.
    - split; [|intros C; inversion C]. intros _. exists [RW [LO]]. split; auto. exists (basis_vec S b). split; auto. split; [constructor|].
      split; [destruct b; reflexivity|]. intros o i Bo Bi.
      apply bits_S in Bo as (x & y & -> & Bx & Bo). rewrite (bits_0 Bo), (bits_0 Bi). clear.
      destruct b, x as [|[|]]; try reflexivity; unfold basis_vec, kdelta; simpl; destruct n; reflexivity.
    - split; [|intros C; inversion C]. intros _. exists [RW [LI]]. split; auto. exists (basis_vec S b). split; auto. split; [constructor|].
      split; [destruct b; reflexivity|]. intros o i Bo Bi.
      apply bits_S in Bi as (x & y & -> & Bx & Bi). rewrite (bits_0 Bo), (bits_0 Bi). clear.
      destruct b, x as [|[|]]; try reflexivity; unfold basis_vec, kdelta; simpl; destruct n; reflexivity.
    - split; intros; simpl in *; discriminate.
    - destruct (@super_ok l ins outs Ne) as (sh & E & Nc & T); auto.
      { intros c a I. apply (IH c a I). }
      split; [intros _; exists sh; auto|]. intros C _ cond sh' E'. rewrite E in E'. inversion E'; subst sh'.
      inversion C as [| |? sh' E'' U|]; subst. rewrite E in E''. inversion E''; subst sh'.
      destruct T as (v & Ev & Cv & Sv & Vv).
      assert (Ec : conv (OSuper l) (Some cond) = ctrl_net (RC :: sh) (stacked cond sh v)).
      { change (conv (OSuper l) (Some cond)) with
          (do _ <- may_control (op_pure (OSuper l)) (op_shape (OSuper l)); do v <- conv (OSuper l) None;
           do sh <- op_shape (OSuper l); ctrl_net (RC :: sh) (stacked cond sh v)).
        rewrite E, Ev. simpl. rewrite U. reflexivity. }
      rewrite Ec. apply stacked_spec; auto. intros o i Bo Bi.
      rewrite <- (unitary_all _ role_out U unitary_out) in Bo. rewrite <- (unitary_all _ role_in U unitary_in) in Bi.
      rewrite ctrl_amp_pure; auto.
    - split; [apply conv_circ_ok; auto; intros k g I; apply (IH k g I)|].
      intros C P cond sh E. rewrite conv_circ_ctl, P, E. cbn [may_control bind].
      inversion C as [| | |? sh' Ne Ss E' U Cg]; subst. rewrite E in E'. inversion E'; subst sh'. rewrite U. cbn [bind].
      apply ctl_net_ok; auto. intros k g I. split; [eauto|]. apply (IH k g I); eauto.
      + apply (proj2 (pure_circ _ P) k g I).
      + destruct (G k g I) as [_ L]. apply op_len_shape in L; tauto.
    - split; [|intros C; inversion C]. intros _. destruct (pure_circ _ Pc) as [(sh & Esh) Pg].
      exists (RC :: sh). split.
      + change (op_shape (OCCirc cond c)) with (do sh <- op_shape (OCirc c); Ok (RC :: sh)). rewrite Esh. reflexivity.
      + change (op_amp (OCCirc cond c)) with (when_amp cond (op_amp (OCirc c))).
        specialize (IH2 Cc Pc cond sh Esh). rewrite conv_circ_ctl, Pc, Esh in IH2. cbn [may_control bind] in IH2.
        inversion Cc as [| | |? sh' Ne Ss E' U Cg]; subst. rewrite Esh in E'. inversion E'; subst sh'. rewrite U in IH2.
        rewrite conv_ccirc. exact IH2.
  Qed.
End Main.
