(** Adjoints. *)
From Coq Require Import Sorting.Permutation Sorting.Sorted.
From Verif Require Import Base Scalar NetSpec Sums NetAlg ModelArray ModelTN TNInv TNOps TNSpec TNValue TNExact TNEdit
  TNEdit2 ModelVal ModelOps OpsSpec OpsProofs OpsValue ModelContract ContractExec NameOrder CircSpec CircSum CircOrder
  ModelCircuit CircSem CircShape CircWire CircStep CircNet CircCtrl CircWhen CircOp CircMain CircBuild.
Set Implicit Arguments.

(** ** amplitudes depend on the entries of the operations only *)
Section Ext.
  Variable S : scalar.
  Local Open Scope K_scope.
  Definition same_act (g h : act S) : Prop :=
    on g = on h /\ words g = words h /\
    forall o i, bits (length (act_outs g)) o -> bits (length (act_ins g)) i -> amp g o i = amp h o i.
  Lemma same_word g h q : same_act g h -> word_at g q = word_at h q.
  Proof. intros (E1 & E2 & _). unfold word_at. rewrite E1, E2. auto. Qed.
  Lemma same_history gs hs q : Forall2 same_act gs hs -> history gs q = history hs q.
  Proof.
    induction 1 as [|g h gs hs E F IH]; auto. change (word_at g q ++ history gs q = word_at h q ++ history hs q).
    rewrite (same_word q E), IH. auto.
  Qed.
  Lemma run_same Q : NoDup Q -> forall gs hs, Forall2 same_act gs hs -> (forall g, In g gs -> incl (on g) Q) ->
    forall psi psi' e, (forall x, (forall q, In q Q -> x q < 2)%nat -> psi x = psi' x) -> (forall q, In q Q -> e q < 2)%nat ->
    run Q gs psi e = run Q hs psi' e.
  Proof.
    intros NQ. induction 1 as [|g h gs hs E F IH]; intros I psi psi' e Ep Be; [apply Ep; auto|].
    change (run Q gs (evolve Q g psi) e = run Q hs (evolve Q h psi') e). apply IH; auto; [intros x Ix; apply I; simpl; auto|].
    intros x Bx. unfold evolve. apply esum_ext; [rewrite keys_qdom; auto|]. intros m [Rm _].
    assert (Bm : forall q, In q Q -> (m q < 2)%nat).
    { intros q Iq. apply bits01, (Rm q). unfold qdom. apply in_map_iff; eauto. }
    rewrite Ep by auto. f_equal. unfold matrix.
    assert (Eo : act_outs g = act_outs h).
    { unfold act_outs. destruct E as (E1 & E2 & _). rewrite E1. apply filter_ext. intros q. unfold word_at. rewrite E1, E2. auto. }
    assert (Ei : act_ins g = act_ins h).
    { unfold act_ins. destruct E as (E1 & E2 & _). rewrite E1. apply filter_ext. intros q. unfold word_at. rewrite E1, E2. auto. }
    f_equal.
    - f_equal. apply forallb_iff. split; intros H q Iq; specialize (H q Iq); rewrite (same_word q E) in *; auto.
    - rewrite <- Eo, <- Ei. assert (Ig : incl (on g) Q) by (apply I; simpl; auto). apply E.
      + split; [apply map_length|]. apply Forall_forall. intros b Ib. apply in_map_iff in Ib as (q & <- & Iq). apply Bx, Ig.
        unfold act_outs in Iq. apply filter_In in Iq; tauto.
      + split; [apply map_length|]. apply Forall_forall. intros b Ib. apply in_map_iff in Ib as (q & <- & Iq). apply Bm, Ig.
        unfold act_ins in Iq. apply filter_In in Iq; tauto.
  Qed.
  Lemma wires_out_same Q gs hs : Forall2 same_act gs hs -> wires_out Q gs = wires_out Q hs.
  Proof. intros F. unfold wires_out; apply filter_ext; intros q; rewrite (same_history q F); auto. Qed.
  Lemma amplitude_same Q gs hs o i : NoDup Q -> Forall2 same_act gs hs -> (forall g, In g gs -> incl (on g) Q) ->
    bits (length (wires_out Q gs)) o -> amplitude Q gs o i = amplitude Q hs o i.
  Proof.
    intros NQ F I Bo. unfold amplitude.
    assert (Wo : wires_out Q gs = wires_out Q hs) by (unfold wires_out; apply filter_ext; intros q; rewrite (same_history q F); auto).
    assert (Wi : wires_in Q gs = wires_in Q hs) by (unfold wires_in; apply filter_ext; intros q; rewrite (same_history q F); auto).
    rewrite <- Wo, <- Wi. apply run_same; auto. intros q Iq. apply bits_place; auto.
  Qed.
End Ext.

(** ** flipped words *)
Lemma alternating_snoc w a : alternating (w ++ [a]) <-> alternating w /\ (w = [] \/ last w a <> a).
Proof.
  induction w as [|b w IH]; [simpl; tauto|]. destruct w as [|c w].
  - simpl. split; intros H; intuition congruence.
  - change (alternating ((b :: c :: w) ++ [a])) with (b <> c /\ alternating ((c :: w) ++ [a])). rewrite IH.
    change (alternating (b :: c :: w)) with (b <> c /\ alternating (c :: w)).
    change (last (b :: c :: w) a) with (last (c :: w) a).
    split; [intros (H1 & H2 & H3)|intros ((H1 & H2) & H3)]; repeat split; auto; right.
    + destruct H3 as [H3|H3]; [discriminate|auto].
    + destruct H3 as [H3|H3]; [discriminate|auto].
Qed.
Lemma alternating_flip w : alternating w -> alternating (flip_word w).
Proof.
  unfold flip_word. induction w as [|a w IH]; intros A; [exact I|]. simpl rev. rewrite map_app. simpl map. apply alternating_snoc.
  split; [apply IH; apply alternating_tail in A; auto|]. destruct w as [|b w]; [left; auto|]. right.
  simpl rev. rewrite map_app. simpl map. rewrite last_last. destruct A as [N _]. destruct a, b; simpl; congruence.
Qed.
Lemma short_words w v : alternating w -> alternating v -> length w <= 2 -> length v <= 2 -> is_nil w = is_nil v ->
  starts_in w = starts_in v -> ends_out w = ends_out v -> w = v.
Proof.
  intros Aw Av Lw Lv N A B.
  destruct w as [|[] [|[] [|]]]; destruct v as [|[] [|[] [|]]]; simpl in *; auto; try lia; try discriminate; intuition congruence.
Qed.
Lemma truncate_flip w : alternating w -> truncate (flip_word w) = flip_word (truncate w).
Proof.
  intros A. destruct (truncate_shape _ A) as (H1 & H2 & H3 & H4 & H5).
  destruct (truncate_shape _ (alternating_flip _ A)) as (K1 & K2 & K3 & K4 & K5).
  assert (L : forall v, length (flip_word v) = length v) by (intros v; unfold flip_word; rewrite map_length, rev_length; auto).
  assert (N : forall v, is_nil (flip_word v) = is_nil v).
  { intros v. specialize (L v). destruct v as [|a v]; auto. remember (flip_word (a :: v)) as u. destruct u; auto. simpl in L. lia. }
  apply short_words; auto using alternating_flip.
  - rewrite L; auto.
  - rewrite K3, !N, H3; auto.
  - rewrite K1, !flip_starts; auto.
  - rewrite K2, !flip_ends; auto.
Qed.
Lemma flip_role_word r : role_word (flip_role r) = flip_word (role_word r).
Proof. destruct r; reflexivity. Qed.
Lemma flip_role_in r : role_in (flip_role r) = role_out r.
Proof. destruct r; simpl; auto. apply flip_starts. Qed.
Lemma flip_role_out r : role_out (flip_role r) = role_in r.
Proof. destruct r; simpl; auto. apply flip_ends. Qed.
Lemma flip_is_in r : is_in (flip_role r) = is_out r.
Proof. destruct r; simpl; auto. apply flip_starts. Qed.
Lemma flip_is_out r : is_out (flip_role r) = is_in r.
Proof. destruct r; simpl; auto. apply flip_ends. Qed.
Lemma flip_is_ctrl r : is_ctrl (flip_role r) = is_ctrl r.
Proof. destruct r; reflexivity. Qed.
Lemma flip_role_flip r : flip_role (flip_role r) = r.
Proof. destruct r; simpl; auto. rewrite flip_flip; auto. Qed.
Lemma count_flip p q sh : (forall r, p (flip_role r) = q r) -> count p (map flip_role sh) = count q sh.
Proof. intros H. unfold count. induction sh as [|r sh IH]; simpl; auto. rewrite H. destruct (q r); simpl; auto. Qed.
Lemma sel_flip p q p' q' sh : (forall r, p (flip_role r) = p' r) -> (forall r, q (flip_role r) = q' r) ->
  forall x, sel p q (map flip_role sh) x = sel p' q' sh x.
Proof.
  intros H K. induction sh as [|r sh IH]; intros x; simpl; auto. rewrite H, K. destruct (p' r), x; auto. rewrite !IH. auto.
Qed.
Lemma positions_flip p q sh : (forall r, p (flip_role r) = q r) -> positions p (map flip_role sh) = positions q sh.
Proof.
  intros H. unfold positions. rewrite map_length. generalize 0. induction sh as [|r sh IH]; intros k; simpl; auto.
  rewrite H. destruct (q r); simpl; rewrite IH; auto.
Qed.

(** ** transposed data *)
Lemma along_app l m o : along (l ++ m) o = along l o ++ along m o.
Proof. unfold along. apply map_app. Qed.
Lemma along_seq a x b : along (seq (length a) (length x)) (a ++ x ++ b) = x.
Proof.
  unfold along. revert a. induction x as [|y x IH]; intros a; simpl; auto. f_equal.
  - rewrite app_nth2 by lia. rewrite Nat.sub_diag. auto.
  - specialize (IH (a ++ [y])). rewrite app_length in IH. simpl in IH. rewrite Nat.add_1_r in IH.
    rewrite <- app_assoc in IH. exact IH.
Qed.
Lemma along_repeat axes n m : (forall a, In a axes -> a < m) -> length axes = n -> along axes (repeat 2 m) = repeat 2 n.
Proof.
  intros H <-. unfold along. induction axes as [|a r IH]; simpl; auto. f_equal; [|apply IH; intros; apply H; simpl; auto].
  assert (L : a < m) by (apply H; simpl; auto). clear -L. revert a L. induction m as [|m IH]; intros [|a] L; simpl; auto; try lia. apply IH; lia.
Qed.

Section Adj.
  Variable S : scalar.
  Notation tval := (tval S).
  Notation op := (op S).
  Local Open Scope K_scope.
  Add Ring Kring_adj : (kring S).

  (** the tensor [d] with axes [a], [b], [c] in this order becomes [a], [c], [b], conjugated *)
  Lemma swap_value (d : tval) a b c : complete d -> tval_shape d = twos (a + b + c) ->
    exists cj v, v_conj d = Ok cj /\ v_transpose (NI 0, cj) (seq 0 a ++ seq (a + b) c ++ seq a b) = Ok v /\
      complete v /\ tval_shape v = twos (a + b + c) /\
      forall x y z, bits a x -> bits b y -> bits c z -> tval_value v (x ++ z ++ y) = kconj (tval_value d (x ++ y ++ z)).
  Proof.
    intros C Sh. destruct (complete_conj C) as (cj & Ec & Cc). exists cj.
    destruct (v_conj_value _ Ec) as [Sc Vc].
    destruct (@transpose_value S (NI 0) cj (repeat 2%nat (a + b + c)) (seq 0 a ++ seq (a + b) c ++ seq a b)) as (v & Ev & Sv & Vv & Cv).
    { rewrite Sc, Sh. apply twos_dims. }
    { rewrite repeat_length. rewrite <- Nat.add_assoc, seq_app. apply Permutation_app_head.
      rewrite Nat.add_0_l, seq_app. apply Permutation_app_comm. }
    exists v. split; auto. split; auto. split; auto. split.
    - rewrite Sv, twos_dims. do 2 f_equal. apply along_repeat.
      + intros x. rewrite !in_app_iff, !in_seq. lia.
      + rewrite !app_length, !seq_length. lia.
    - intros x y z Bx By Bz. rewrite <- Vc, <- (Vv (x ++ y ++ z)).
      + f_equal. rewrite !along_app. destruct Bx as [Lx _], By as [Ly _], Bz as [Lz _]. f_equal; [|f_equal].
        * rewrite <- Lx. symmetry. apply (along_seq [] x (y ++ z)).
        * pose proof (along_seq (x ++ y) z []) as H. rewrite app_length, Lx, Ly, Lz, app_nil_r, <- app_assoc in H. auto.
        * pose proof (along_seq x y z) as H. rewrite Lx, Ly in H. auto.
      + apply in_shape_bits. rewrite <- Nat.add_assoc. apply bits_app; auto. apply bits_app; auto.
  Qed.

  Definition adj_spec (o o' : op) (sh : list role) : Prop :=
    adj o = Ok o' /\ op_wf o' /\ reversible o' /\ op_pure o' = Ok true /\ op_shape o' = Ok (map flip_role sh) /\
    forall x y, bits (count role_out sh) x -> bits (count role_in sh) y -> op_amp o' y x = kconj (op_amp o x y).

  Lemma adj_pure sa sh d : op_wf (OPure sa sh d) -> reversible (OPure sa sh d) -> exists o', adj_spec (OPure sa sh d) o' sh.
  Proof.
    intros W R. inversion W as [? ? ? Cd Nc Sd| | | | | | |]; subst. inversion R as [? ? ? Sa| | | | |]; subst.
    destruct sa.
    - destruct (Sa eq_refl) as [Fl Am]. exists (OPure true sh d). split; auto. split; auto. split; auto. split; auto.
      split; [simpl; congruence|]. exact Am.
    - assert (Lo := count_out sh). assert (Li := count_in sh).
      destruct (@swap_value d 0 (count is_out sh) (count is_in sh) Cd) as (cj & v & Ec & Ev & Cv & Sv & Vv).
      { rewrite Sd. f_equal. lia. }
      assert (Ci : count is_in (map flip_role sh) = count is_out sh) by (apply count_flip, flip_is_in).
      assert (Co : count is_out (map flip_role sh) = count is_in sh) by (apply count_flip, flip_is_out).
      assert (Cc : count is_ctrl (map flip_role sh) = count is_ctrl sh) by (apply count_flip, flip_is_ctrl).
      assert (Sv' : tval_shape v = twos (count is_in (map flip_role sh) + count is_out (map flip_role sh))).
      { rewrite Sv, Ci, Co. auto. }
      exists (OPure false (map flip_role sh) v). split; [|split; [|split; [|split; [|split]]]].
      + simpl adj. rewrite Ec. cbn [bind]. simpl in Ev. rewrite Ev. cbn [bind]. unfold mk_pure, shape_is. rewrite Sv', eqb_refl. auto.
      + constructor; auto. congruence.
      + constructor. discriminate.
      + reflexivity.
      + reflexivity.
      + intros x y Bx By. simpl. apply (Vv [] x y); [split; auto| |].
        * rewrite Lo, Nc in Bx. auto.
        * rewrite Li, Nc in By. auto.
  Qed.
  Lemma adj_ctrl sa sh d : op_wf (OCtrl sa sh d) -> reversible (OCtrl sa sh d) -> exists o', adj_spec (OCtrl sa sh d) o' sh.
  Proof.
    intros W R. inversion W as [|? ? ? Cd Sd| | | | | |]; subst. inversion R as [|? ? ? Sa| | | |]; subst.
    destruct sa.
    - destruct (Sa eq_refl) as [Fl Am]. exists (OCtrl true sh d). split; auto. split; auto. split; auto. split; auto.
      split; [simpl; congruence|]. exact Am.
    - assert (Lo := count_out sh). assert (Li := count_in sh).
      destruct (@swap_value d (count is_ctrl sh) (count is_out sh) (count is_in sh) Cd) as (cj & v & Ec & Ev & Cv & Sv & Vv).
      { rewrite Sd. f_equal. lia. }
      assert (Ci : count is_in (map flip_role sh) = count is_out sh) by (apply count_flip, flip_is_in).
      assert (Co : count is_out (map flip_role sh) = count is_in sh) by (apply count_flip, flip_is_out).
      assert (Cc : count is_ctrl (map flip_role sh) = count is_ctrl sh) by (apply count_flip, flip_is_ctrl).
      assert (Sv' : tval_shape v = twos (count is_ctrl (map flip_role sh) + count is_in (map flip_role sh) + count is_out (map flip_role sh))).
      { rewrite Sv, Ci, Co, Cc. auto. }
      exists (OCtrl false (map flip_role sh) v). split; [|split; [|split; [|split; [|split]]]].
      + simpl adj. rewrite Ec. cbn [bind]. rewrite Ev. cbn [bind]. unfold mk_ctrl, shape_is. rewrite Sv', eqb_refl. auto.
      + constructor; auto.
      + constructor. discriminate.
      + reflexivity.
      + reflexivity.
      + intros x y Bx By. simpl. unfold ctrl_amp.
        rewrite (@sel_flip role_out is_ctrl role_in is_ctrl), (@sel_flip role_in is_ctrl role_out is_ctrl),
                (@sel_flip role_out is_out role_in is_in), (@sel_flip role_in is_in role_out is_out);
          auto using flip_role_in, flip_role_out, flip_is_in, flip_is_out, flip_is_ctrl.
        rewrite kconj_mul, kconj_delta.
        destruct (eqb_spec (sel role_in is_ctrl sh y) (sel role_out is_ctrl sh x)) as [E|N].
        * rewrite E, eqb_refl. f_equal. apply Vv; apply sel_bits; auto; intros [|]; simpl; auto; discriminate.
        * destruct (eqb_spec (sel role_out is_ctrl sh x) (sel role_in is_ctrl sh y)) as [E|_]; [congruence|]. simpl. unfold kdelta. ring.
  Qed.

  (** ** superpositions *)
  Definition adj_pair (p q : S * op) : Prop := fst q = kconj (fst p) /\ adj_spec (snd p) (snd q) (shape_or (snd p)).
  Definition adj_list := fix go (l : list (S * op)) : res (list (S * op)) :=
    match l with
    | [] => Ok []
    | (c, a) :: r => do b <- adj a; do w <- go r; Ok ((kconj c, b) :: w)
    end.
  Lemma adj_list_ok (l : list (S * op)) : (forall c a, In (c, a) l -> exists b, adj_spec a b (shape_or a)) ->
    exists l', adj_list l = Ok l' /\ Forall2 adj_pair l l'.
  Proof.
    induction l as [|[c a] l IH]; intros H; [exists []; simpl; auto|].
    destruct (H c a) as (b & B); [simpl; auto|]. destruct IH as (l' & E & F); [intros c' a' I; apply (H c' a'); simpl; auto|].
    exists ((kconj c, b) :: l'). split; [|constructor; [split|]; auto]. simpl. rewrite (proj1 B). simpl. rewrite E. auto.
  Qed.
  Lemma sumf_pairs (l l' : list (S * op)) x y (R : S * op -> S * op -> Prop) :
    (forall p q, In p l -> R p q -> fst q * op_amp (snd q) y x = kconj (fst p * op_amp (snd p) x y)) -> Forall2 R l l' ->
    sumf (fun p => fst p * op_amp (snd p) y x) l' = kconj (sumf (fun p => fst p * op_amp (snd p) x y) l).
  Proof.
    intros H F. induction F as [|p q l l' E F IH].
    - simpl. symmetry. apply kconj_0.
    - cbn [sumf fold_right] in *. unfold sumf in *. simpl. rewrite kconj_add, IH; [|intros; apply H; simpl; auto].
      f_equal. apply H; simpl; auto.
  Qed.
  Lemma Forall2_in_r {X Y} (R : X -> Y -> Prop) l m y : Forall2 R l m -> In y m -> exists x, In x l /\ R x y.
  Proof.
    induction 1 as [|a b l m E F IH]; intros I; [destruct I|]. destruct I as [->|I]; [exists a; simpl; auto|].
    destruct (IH I) as (x & Ix & Ex). exists x; simpl; auto.
  Qed.
  Lemma adj_super (l : list (S * op)) sh : op_wf (OSuper l) -> op_shape (OSuper l) = Ok sh ->
    (forall c a, In (c, a) l -> exists b, adj_spec a b (shape_or a)) -> exists o', adj_spec (OSuper l) o' sh.
  Proof.
    intros W Es H. inversion W as [| | | | |? ins outs Ne Wl Pl Po| |]; subst.
    destruct (adj_list_ok _ H) as (l' & E & F). exists (OSuper l').
    assert (Cn : count role_out sh = length outs /\ count role_in sh = length ins).
    { destruct l as [|[c a] l]; [congruence|]. destruct (Po c a) as (s & Ea & <- & <-); [simpl; auto|].
      simpl in Es. rewrite Ea in Es. inversion Es; subst. rewrite !positions_count, !uncontrol_count; auto; intros [|]; auto. }
    split; [|split; [|split; [|split; [|split]]]].
    - change (adj (OSuper l)) with (do r <- adj_list l; Ok (OSuper r)). rewrite E. auto.
    - apply (@wf_super S l' outs ins).
      + intros ->. inversion F; subst. congruence.
      + intros c b I. destruct (Forall2_in_r _ F I) as ([c0 a] & I0 & _ & B). simpl in B. apply B.
      + intros c b I. destruct (Forall2_in_r _ F I) as ([c0 a] & I0 & _ & B). simpl in B. apply B.
      + intros c b I. destruct (Forall2_in_r _ F I) as ([c0 a] & I0 & _ & B). simpl in B.
        destruct (Po c0 a I0) as (s & Ea & Pi & Pq). rewrite (shape_or_eq _ Ea) in B. destruct B as (_ & _ & _ & _ & Eb & _).
        exists (map flip_role s). split; auto. rewrite (@positions_flip role_in role_out), (@positions_flip role_out role_in);
          auto using flip_role_in, flip_role_out.
    - constructor. intros c b I. destruct (Forall2_in_r _ F I) as ([c0 a] & I0 & _ & B). apply B.
    - reflexivity.
    - destruct F as [|[c a] [c' b] l l' (E1 & B) F]; [congruence|]. simpl in Es |- *.
      destruct (Po c a) as (s & Ea & _); [simpl; auto|]. rewrite Ea in Es. cbn [bind] in Es. inversion Es; subst.
      simpl in B. rewrite (shape_or_eq _ Ea) in B. destruct B as (_ & _ & _ & _ & -> & _). simpl. f_equal.
      rewrite !map_map. apply map_ext. intros [|]; reflexivity.
    - intros x y Bx By. rewrite !amp_super. apply sumf_pairs with (R := adj_pair); auto.
      intros [c a] [c' b] I (E1 & B). simpl in *. subst c'. rewrite kconj_mul. f_equal.
      destruct (Po c a I) as (s & Ea & Pi & Pq). rewrite (shape_or_eq _ Ea) in B. destruct B as (_ & _ & _ & _ & _ & Ab).
      apply Ab; rewrite <- positions_count; [rewrite Pq|rewrite Pi]; destruct Cn as [Cn1 Cn2]; rewrite <- ?Cn1, <- ?Cn2; auto.
  Qed.

  (** ** circuits *)
  Definition adj_gate (M : Z) (p q : name * gate op) : Prop :=
    fst q = NT [NI (M - g_time (snd p)); NT (g_qubits (snd p))] /\ g_time (snd q) = (M - g_time (snd p))%Z /\
    g_qubits (snd q) = g_qubits (snd p) /\ adj_spec (g_op (snd p)) (g_op (snd q)) (shape_or (g_op (snd p))).
  Definition adj_gates (M : Z) := fix go (l acc : circ op) : res (circ op) :=
    match l with
    | [] => Ok acc
    | (_, Gate t q a) :: r => do b <- adj a; do acc <- c_append b q (Some (M - t)%Z) None acc; go r acc
    end.
  Definition slot_of (p : name * gate op) : Z * list name := (g_time (snd p), g_qubits (snd p)).
  Lemma adj_gates_ok M : forall (l acc : circ op), gates_ok l ->
    (forall k g, In (k, g) l -> exists b, adj_spec (g_op g) b (shape_or (g_op g))) -> NoDup (map slot_of l) ->
    (forall k g, In (k, g) l -> ~ In (NT [NI (M - g_time g); NT (g_qubits g)]) (keys acc)) ->
    exists l', adj_gates M l acc = Ok (acc ++ l') /\ Forall2 (adj_gate M) l l'.
  Proof.
    induction l as [|[k [t q a]] l IH]; intros acc G H N Fr; [exists []; simpl; rewrite app_nil_r; auto|].
    destruct (H k (Gate t q a)) as (b & B); [simpl; auto|]. simpl in B.
    destruct (G k (Gate t q a)) as [Nq Lq]; [simpl; auto|]. simpl in Nq, Lq.
    set (k' := NT [NI (M - t); NT q]).
    assert (Ea : c_append b q (Some (M - t)%Z) None acc = Ok (acc ++ [(k', Gate (M - t)%Z q b)])).
    { apply c_append_ok. split; auto. split.
      - unfold op_len. destruct B as (_ & _ & _ & _ & -> & _). simpl. rewrite map_length. apply op_len_shape in Lq as [_ ->]. auto.
      - simpl. rewrite set_fresh; auto. apply (Fr k (Gate t q a)). simpl; auto. }
    destruct (IH (acc ++ [(k', Gate (M - t)%Z q b)])) as (l' & E & F).
    - intros k0 g I. apply (G k0 g). simpl; auto.
    - intros k0 g I. apply (H k0 g). simpl; auto.
    - inversion N; auto.
    - intros k0 g I X. unfold keys in X. rewrite map_app, in_app_iff in X. destruct X as [X|[X|[]]].
      + apply (Fr k0 g); simpl; auto.
      + simpl in X. inversion N as [|? ? Nin _]; subst. apply Nin.
        assert (X1 : (M - t)%Z = (M - g_time g)%Z) by (unfold k' in X; congruence).
        assert (X2 : q = g_qubits g) by (unfold k' in X; congruence).
        apply in_map_iff. exists (k0, g). split; auto. unfold slot_of; simpl. f_equal; auto. lia.
    - exists ((k', Gate (M - t)%Z q b) :: l'). split.
      + simpl. rewrite (proj1 B). cbn [bind]. rewrite Ea. cbn [bind]. rewrite E, <- app_assoc. auto.
      + constructor; auto. repeat split; auto; apply B.
  Qed.
  Lemma FOP_map2 {X Y} (P : X -> Y -> Prop) (R : X -> X -> Prop) (Q : Y -> Y -> Prop) l m :
    (forall a b c d, P a b -> P c d -> R a c -> Q b d) -> Forall2 P l m -> ForallOrdPairs R l -> ForallOrdPairs Q m.
  Proof.
    intros H F. induction F as [|a b l m E F IH]; intros O; inversion O; subst; constructor; auto.
    apply Forall_forall. intros d Id. destruct (Forall2_in_r _ F Id) as (c & Ic & Ec).
    eapply H; eauto. eapply Forall_forall in H2; eauto.
  Qed.
  Lemma adj_gate_act M p q : gates_ok [p] -> adj_gate M p q -> same_act (act_adj (@gate_act S p)) (@gate_act S q).
  Proof.
    destruct p as [k [t qs a]], q as [k' [t' qs' b]]. intros G (_ & _ & Eq & B). simpl in Eq, B. subst qs'.
    destruct (G k (Gate t qs a)) as [Nq Lq]; [simpl; auto|]. apply op_len_shape in Lq as [Ea La]. simpl in Nq, La.
    destruct B as (_ & _ & _ & _ & Eb & Ab). split; [reflexivity|]. split.
    - simpl. rewrite (shape_or_eq _ Eb), !map_map. apply map_ext. intros r. symmetry. apply flip_role_word.
    - intros x y Bx By. simpl. symmetry. apply Ab.
      + replace (count role_out (shape_or a)) with (length (act_ins (act_adj (gate_act (k, Gate t qs a))))); auto.
        unfold gate_act, gact, act_adj. simpl. rewrite map_map. rewrite (map_ext _ (fun r => role_word (flip_role r))) by (intros r; symmetry; apply flip_role_word).
        rewrite <- map_map. rewrite act_ins_count by (rewrite ?map_length; auto). apply count_flip, flip_role_in.
      + replace (count role_in (shape_or a)) with (length (act_outs (act_adj (gate_act (k, Gate t qs a))))); auto.
        unfold gate_act, gact, act_adj. simpl. rewrite map_map. rewrite (map_ext _ (fun r => role_word (flip_role r))) by (intros r; symmetry; apply flip_role_word).
        rewrite <- map_map. rewrite act_outs_count by (rewrite ?map_length; auto). apply count_flip, flip_role_out.
  Qed.
  Lemma pure_circ_rev (c : circ op) sh : op_shape (OCirc c) = Ok sh -> (forall k g, In (k, g) c -> op_pure (g_op g) = Ok true) ->
    op_pure (OCirc c) = Ok true.
  Proof.
    intros E H. cbn [op_pure]. rewrite E. simpl. clear E. induction c as [|[k [t q a]] r IH]; auto.
    assert (Ha : op_pure a = Ok true) by (apply (H k (Gate t q a)); simpl; auto). rewrite Ha. cbn [bind]. rewrite IH by (intros k' g I; apply (H k' g); simpl; auto). auto.
  Qed.
  Lemma map_adj_gate M (c d : circ op) : gates_ok c -> Forall2 (adj_gate M) c d ->
    Forall2 (@same_act S) (map (@act_adj S) (map (@gate_act S) c)) (map (@gate_act S) d).
  Proof.
    intros G F. induction F as [|p q c d E F IH]; simpl; constructor.
    - eapply adj_gate_act; eauto. destruct p as [k g]. intros k' g' [I|[]]. apply (G k' g'). rewrite I; simpl; auto.
    - apply IH. intros k g I. apply (G k g). simpl; auto.
  Qed.
  Lemma rev_sorted_adj M (c d : circ op) : Forall2 (adj_gate M) c d -> StronglySorted (@earlier S) c -> StronglySorted (@earlier S) (rev d).
  Proof.
    intros F. induction F as [|p q c d E F IH]; intros H; simpl; [constructor|]. inversion H as [|? ? H1 H2]; subst.
    apply sorted_app; auto; [repeat constructor|]. intros x y Ix [<-|[]]. apply in_rev in Ix.
    destruct (Forall2_in_r _ F Ix) as (z & Iz & (_ & Tz & _)). destruct E as (_ & Tq & _).
    eapply Forall_forall in H2; eauto. unfold earlier in *. rewrite Tz, Tq. lia.
  Qed.
  Lemma Forall2_rev {X Y} (R : X -> Y -> Prop) l m : Forall2 R l m -> Forall2 R (rev l) (rev m).
  Proof. induction 1; simpl; auto. apply Forall2_app; auto. Qed.

  Lemma adj_circ (c : circ op) sh : op_wf (OCirc c) -> reversible (OCirc c) -> op_pure (OCirc c) = Ok true -> op_shape (OCirc c) = Ok sh ->
    (forall k g, In (k, g) c -> exists b, adj_spec (g_op g) b (shape_or (g_op g))) -> exists o', adj_spec (OCirc c) o' sh.
  Proof.
    intros W R P E H. inversion W as [| | | | | |? N Wg G|]; subst. inversion R as [| | | | |? Ns Rg]; subst.
    fold slot_of in Ns. assert (G' : gates_ok c) by exact G.
    destruct (@adj_gates_ok (max_time c) c []) as (c' & Ec & F); auto. simpl in Ec.
    destruct (any_order G' E (in_order_perm c) (@in_order_sorted _ c)) as (Q & AQ & Al & Co & Ci & Esh & Am).
    destruct (Permutation_Forall2 (in_order_perm c) F) as (d & Pd & Fd).
    assert (Gi : gates_ok (in_order c)) by (apply gates_order; auto).
    set (gs := map (@gate_act S) (in_order c)) in *.
    assert (Sm : Forall2 (@same_act S) (rev (map (@act_adj S) gs)) (map (@gate_act S) (rev d))).
    { rewrite map_rev. apply Forall2_rev. eapply map_adj_gate; eauto. }
    assert (Gc' : gates_ok c').
    { intros k g I. destruct (Forall2_in_r _ F I) as ([k0 g0] & I0 & (_ & _ & Eq & B)). simpl in *. destruct (G k0 g0 I0) as [Nq Lq].
      rewrite Eq. split; auto. destruct B as (_ & _ & _ & _ & Eb & _). unfold op_len. rewrite Eb. simpl. rewrite map_length.
      apply op_len_shape in Lq as [_ ->]. auto. }
    assert (AQ' : all_qubits c' = Ok Q).
    { rewrite <- AQ. unfold all_qubits. do 2 f_equal. unfold qubits_of. clear -F. revert F. generalize (max_time c) as M. intros M F. induction F as [|p q l m (_ & _ & Eq & _) F IH]; simpl; auto.
      rewrite Eq, IH. auto. }
    assert (Ap : apart_ok (map_circ (@spec_of S) c')).
    { destruct (circ_facts G' E) as (_ & _ & Ap & _). unfold apart_ok in *. clear -Ap F.
      revert Ap. unfold map_circ. intros Ap.
      pose proof (@FOP_map2 (name * gate op) (name * gate op) (adj_gate (max_time c))
         (fun p q => same_time_apart (tact (map_gate (@spec_of S) (snd p))) (tact (map_gate (@spec_of S) (snd q))))
         (fun p q => same_time_apart (tact (map_gate (@spec_of S) (snd p))) (tact (map_gate (@spec_of S) (snd q)))) c c') as T.
      assert (K : forall l : circ op, ForallOrdPairs (@same_time_apart S) (tacts (map (fun p => (fst p, map_gate (@spec_of S) (snd p))) l)) <->
                 ForallOrdPairs (fun p q => same_time_apart (tact (map_gate (@spec_of S) (snd p))) (tact (map_gate (@spec_of S) (snd q)))) l).
      { induction l as [|p l IH]; simpl; split; intros O; try constructor; inversion O; subst; try tauto.
        - unfold tacts in H1. rewrite !Forall_map in H1. auto.
        - unfold tacts. apply Forall_map, Forall_map. auto. }
      apply K. apply T; auto; [|apply K; auto]. intros [k [t q a]] [k' [t' q' a']] [l [u r b]] [l' [u' r' b']] (_ & E1 & E2 & _) (_ & E3 & E4 & _).
      simpl in *. subst. unfold same_time_apart. simpl. intros H Et. apply H. lia. }
    assert (Pr : Permutation c' (rev d)) by (transitivity d; auto using Permutation_rev).
    assert (Hh : forall q, history (map (@gate_act S) (rev d)) q = flip_word (history gs q)).
    { intros q. rewrite <- (same_history q Sm). apply history_adj. }
    destruct (@shape_exists S c' (rev d) Q Gc' Ap Pr) as (sh' & Esh'); auto.
    { eapply rev_sorted_adj; eauto. apply in_order_sorted. }
    { intros q. rewrite Hh. apply alternating_flip; auto. }
    destruct (any_order Gc' Esh' Pr) as (Q' & AQ'' & Al' & Co' & Ci' & Esh2 & Am'); [eapply rev_sorted_adj; eauto; apply in_order_sorted|].
    rewrite AQ' in AQ''. inversion AQ''; subst Q'. clear AQ''.
    assert (Fl : sh' = map flip_role sh).
    { rewrite Esh2, Esh, map_map. apply map_ext. intros q. rewrite Hh, truncate_flip; auto. }
    destruct (all_qubits_spec _ AQ) as (NQ & SQ & IQ).
    assert (Iq : forall g, In g gs -> incl (on g) Q).
    { intros g Ig q Iq. unfold gs in Ig. apply in_map_iff in Ig as ([k g0] & <- & I0). apply IQ, qubits_In.
      exists (k, g0). split; [eapply Permutation_in; [symmetry; apply in_order_perm|auto]|exact Iq]. }
    exists (OCirc c'). split; [|split; [|split; [|split; [|split]]]].
    - change (adj (OCirc c)) with (do p <- op_pure (OCirc c); if p then do r <- adj_gates (max_time c) c []; Ok (OCirc r) else Err ValueError).
      rewrite P. cbn [bind]. rewrite Ec. auto.
    - constructor; auto.
      + assert (Ek : keys c' = map (fun s => NT [NI (max_time c - fst s); NT (snd s)]) (map slot_of c)).
        { clear -F. generalize (max_time c) F. intros M F'. clear F. induction F' as [|p q l m (E & _) F IH]; simpl; auto. rewrite E. f_equal; exact IH. }
        rewrite Ek. apply FinFun.Injective_map_NoDup; auto. intros [t1 q1] [t2 q2] X. simpl in X.
        assert (q1 = q2) by congruence. assert ((max_time c - t1)%Z = (max_time c - t2)%Z) by congruence. f_equal; auto. lia.
      + intros k g I. destruct (Forall2_in_r _ F I) as ([k0 g0] & I0 & (_ & _ & _ & B)). apply B.
    - constructor.
      + assert (Ek : map slot_of c' = map (fun s => ((max_time c - fst s)%Z, snd s)) (map slot_of c)).
        { clear -F. generalize (max_time c) F. intros M F'. clear F. induction F' as [|p q l m (E & E2 & E3 & _) F IH]; simpl; auto. rewrite IH. f_equal.
          unfold slot_of. rewrite E2, E3. auto. }
        change (NoDup (map slot_of c')). rewrite Ek. apply FinFun.Injective_map_NoDup; auto. intros [t1 q1] [t2 q2] X. simpl in X.
        assert (q1 = q2) by congruence. assert ((max_time c - t1)%Z = (max_time c - t2)%Z) by congruence. f_equal; auto. lia.
      + intros k g I. destruct (Forall2_in_r _ F I) as ([k0 g0] & I0 & (_ & _ & _ & B)). apply B.
    - eapply pure_circ_rev; eauto. intros k g I. destruct (Forall2_in_r _ F I) as ([k0 g0] & I0 & (_ & _ & _ & B)). apply B.
    - congruence.
    - assert (Fo : count role_out sh' = count role_in sh) by (rewrite Fl; apply count_flip, flip_role_out).
      intros x y Bx By. rewrite Am' by (rewrite Fo; auto).
      rewrite <- (amplitude_same (o := y) x NQ Sm).
      + rewrite Am by auto. apply amplitude_adj; auto; [rewrite <- Co; auto|rewrite <- Ci; auto].
      + intros g Ig. apply in_rev, in_map_iff in Ig as (g0 & <- & Ig). simpl. apply Iq; auto.
      + rewrite <- Fo, Co' in By. erewrite wires_out_same; eauto.
  Qed.

  Theorem adj_ok (o : op) : op_wf o -> reversible o -> op_pure o = Ok true -> forall sh, op_shape o = Ok sh -> exists o', adj_spec o o' sh.
  Proof.
    intros W R. revert W. induction R as [sa s d Hs|sa s d Hs|b|b|l R IH|c N R IH]; intros W P sh E.
    - simpl in E. inversion E; subst. apply adj_pure; auto. constructor; auto.
    - simpl in E. inversion E; subst. apply adj_ctrl; auto. constructor; auto.
    - simpl in E. inversion E; subst. exists (OMeas b). repeat split; try constructor. intros x y Bx By.
      simpl. rewrite kconj_delta. auto.
    - simpl in E. inversion E; subst. exists (OState b). repeat split; try constructor. intros x y Bx By.
      simpl. rewrite kconj_delta. auto.
    - apply adj_super; auto. inversion W as [| | | | |? ins outs Ne Wl Pl Po| |]; subst. intros c a I.
      destruct (Po c a I) as (s & Es & _). rewrite (shape_or_eq _ Es). apply (IH c a I); auto; [apply (Wl c a I)|apply (Pl c a I)].
    - apply adj_circ; auto; [constructor; auto|]. inversion W as [| | | | | |? Nk Wg G|]; subst. intros k g I.
      destruct (pure_circ _ P) as [_ Pg]. apply (IH k g I); [apply (Wg k g I)|apply (Pg k g I)|].
      destruct (G k g I) as [_ L]. apply op_len_shape in L as [L _]. auto.
  Qed.
  Lemma adj_circ_form (c : circ op) : op_wf (OCirc c) -> reversible (OCirc c) -> op_pure (OCirc c) = Ok true ->
    exists c', adj (OCirc c) = Ok (OCirc c') /\ forall q, used c' q <-> used c q.
  Proof.
    intros W R P. pose proof W as W0. inversion W as [| | | | | |? N Wg G|]; subst. inversion R as [| | | | |? Ns Rg]; subst.
    assert (G' : gates_ok c) by exact G.
    assert (H : forall k g, In (k, g) c -> exists b, adj_spec (g_op g) b (shape_or (g_op g))).
    { intros k g I. destruct (pure_circ _ P) as [_ Pg]. apply adj_ok; eauto.
      destruct (G k g I) as [_ L]. apply op_len_shape in L as [L _]. auto. }
    destruct (@adj_gates_ok (max_time c) c []) as (c' & Ec & F); auto. simpl in Ec. exists c'. split.
    - change (adj (OCirc c)) with (do p <- op_pure (OCirc c); if p then do r <- adj_gates (max_time c) c []; Ok (OCirc r) else Err ValueError).
      rewrite P. cbn [bind]. rewrite Ec. auto.
    - intros q. unfold used. revert F. generalize (max_time c) as M. clear. intros M F. induction F as [|[k g] [k' g'] l m (_ & _ & Eq & _) F IH].
      + split; intros (k & g & [] & _).
      + simpl in Eq. split; intros (k0 & g0 & [E|I] & J).
        * inversion E; subst. rewrite Eq in J. exists k, g. simpl; auto.
        * destruct (proj1 IH) as (k1 & g1 & I1 & J1); [exists k0, g0; auto|]. exists k1, g1; simpl; auto.
        * inversion E; subst. rewrite <- Eq in J. exists k', g'. simpl; auto.
        * destruct (proj2 IH) as (k1 & g1 & I1 & J1); [exists k0, g0; auto|]. exists k1, g1; simpl; auto.
  Qed.
End Adj.
