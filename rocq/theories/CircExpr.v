(** Expressions of gates mean products, tensor products, adjoints and controlled matrices. *)
From Coq Require Import Sorting.Permutation Sorting.Sorted.
From Verif Require Import Base Scalar NetSpec Sums NetAlg ModelArray ModelTN TNInv TNOps TNSpec TNValue TNExact TNEdit
  TNEdit2 ModelVal ModelOps OpsSpec OpsProofs OpsValue ModelContract ContractExec NameOrder CircSpec CircSum CircOrder
  ModelCircuit CircSem CircShape CircWire CircStep CircNet CircCtrl CircWhen CircOp CircMain CircBuild CircAdj CircUse CircMul
  Props_Circuit MatSpec MatProofs ExprSpec.
Set Implicit Arguments.

Section Lined.
  Variable S : scalar.
  Notation op := (op S).
  Local Open Scope K_scope.

  Definition neat (n : nat) (p : name * gate op) : Prop :=
    fst p = NT [NI (g_time (snd p)); NT (g_qubits (snd p))] /\ incl (g_qubits (snd p)) (range_names n) /\
    forallb role_unitary (shape_or (g_op (snd p))) = true.
  Definition lined (n : nat) (x : op) : Prop :=
    op_wf x /\ op_pure x = Ok true /\
    (exists sh, op_shape x = Ok sh /\ length sh = n /\ forallb role_unitary sh = true) /\
    match x with OCirc c => Forall (neat n) c | _ => True end.

  Lemma neat_free n c : Forall (neat n) c -> late_names_free c.
  Proof.
    intros F t qs L I. apply in_map_iff in I as (p & E & I). rewrite Forall_forall in F. destruct (F p I) as (Ek & _).
    pose proof (max_time_le _ _ I). assert (t = g_time (snd p)) by congruence. lia.
  Qed.
  Lemma neat_through n (c : circ op) : gates_ok c -> Forall (neat n) c -> Forall (@through S) (map (@gate_act S) c).
  Proof.
    intros G F. apply Forall_forall. intros g I. apply in_map_iff in I as ([k g0] & <- & I). rewrite Forall_forall in F.
    destruct (F _ I) as (_ & _ & U). destruct (G k g0 I) as [Nq L]. apply op_len_shape in L as [L1 L2].
    apply gact_through with (sh := shape_or (g_op g0)); auto.
  Qed.
  Lemma through_twos (g : act S) q : through g -> exists k, word_at g q = concat (repeat [LI; LO] k).
  Proof.
    intros T. destruct (mem q (on g)) eqn:M.
    - exists 1%nat. apply mem_In in M. rewrite (T q M). auto.
    - exists 0%nat. apply mem_false in M. apply word_at_off; auto.
  Qed.
  Lemma history_twos (gs : list (act S)) q : Forall (@through S) gs -> exists k, history gs q = concat (repeat [LI; LO] k).
  Proof.
    induction 1 as [|g gs T F [k IH]]; [exists 0%nat; auto|]. rewrite history_cons, IH. destruct (through_twos q T) as [j ->].
    exists (j + k)%nat. rewrite repeat_app, concat_app. auto.
  Qed.
  Lemma truncate_twos k : k <> 0%nat -> truncate (concat (repeat [LI; LO] k)) = [LI; LO].
  Proof.
    intros N. destruct k as [|k]; [congruence|]. unfold truncate.
    assert (E : (length (concat (repeat [LI; LO] (Datatypes.S k))) mod 2 = 0)%nat).
    { assert (L : forall j, length (concat (repeat [LI; LO] j)) = (j * 2)%nat) by (induction j; simpl; auto). rewrite L. apply Nat.mod_mul. lia. }
    rewrite E. auto.
  Qed.
  (** a circuit of such gates *)
  Lemma neat_shape n (c : circ op) sh : gates_ok c -> op_shape (OCirc c) = Ok sh -> Forall (neat n) c ->
    forallb role_unitary sh = true /\ (length sh <= n)%nat /\
    (length sh = n -> forall q, In q (range_names n) <-> exists k g, In (k, g) c /\ In q (g_qubits g)).
  Proof.
    intros G E F. destruct (any_order G E (in_order_perm c) (@in_order_sorted _ c)) as (Q & AQ & _ & _ & _ & Esh & _).
    destruct (all_qubits_spec _ AQ) as (NQ & _). destruct (all_qubits_register _ AQ) as [IQ _].
    assert (In_Q : forall q, In q Q <-> exists k g, In (k, g) c /\ In q (g_qubits g)) by (intros q; apply IQ).
    assert (Fo : Forall (neat n) (in_order c)) by (eapply Permutation_Forall; [apply in_order_perm|auto]).
    assert (T : Forall (@through S) (map (@gate_act S) (in_order c))) by (eapply neat_through; eauto; apply gates_order; auto).
    assert (Inc : incl Q (range_names n)).
    { intros q Iq. apply In_Q in Iq as (k & g & I & J). rewrite Forall_forall in F. destruct (F _ I) as (_ & H & _). apply H; auto. }
    split; [|split].
    - rewrite Esh. apply forallb_forall. intros r Ir. apply in_map_iff in Ir as (q & <- & Iq).
      destruct (history_twos q T) as [k Ek]. rewrite Ek, truncate_twos; auto. intros ->. simpl in Ek.
      apply In_Q in Iq as (k & g & I & J).
      destruct (wires_all [q] T) as [W _].
      { intros x [<-|[]]. exists (gate_act (k, g)). split; [|exact J]. apply in_map. eapply Permutation_in; [apply in_order_perm|exact I]. }
      unfold wires_in in W. simpl in W. rewrite Ek in W. discriminate.
    - rewrite Esh, map_length. rewrite <- (range_length n). apply NoDup_incl_length; auto.
    - intros L q. rewrite <- In_Q. split; [|auto]. apply NoDup_length_incl; auto. rewrite range_length. rewrite Esh, map_length in L. lia.
  Qed.
  Lemma unitary_count n (sh : list role) : length sh = n -> forallb role_unitary sh = true -> count role_out sh = n /\ count role_in sh = n.
  Proof. intros <- U. split; apply unitary_all; auto using unitary_out, unitary_in. Qed.
  Lemma lined_has n x : lined n x -> has_matrix x n (op_amp x).
  Proof.
    intros (W & P & (sh & E & L & U) & _). destruct (unitary_count _ L U). eapply has_amp; eauto.
  Qed.

  (** *** a | b *)
  Lemma whole_neat n k (o : op) sh : op_shape o = Ok sh -> length sh = n -> forallb role_unitary sh = true ->
    neat n (NT [NI k; NT (range_names (length (shape_or o)))], Gate k (range_names (length (shape_or o))) o).
  Proof. intros E L U. unfold neat. simpl. rewrite (shape_or_eq _ E), L. split; auto. split; auto. intros q; auto. Qed.
  Lemma whole_through n (o : op) sh : op_shape o = Ok sh -> length sh = n -> forallb role_unitary sh = true -> through (whole o).
  Proof.
    intros E L U. unfold whole, gate_act. apply gact_through with (sh := sh); auto. simpl. rewrite range_length, (shape_or_eq _ E). auto.
  Qed.
  Lemma part_through n (a : op) gs : lined n a -> (gs = [whole a] \/ exists c, a = OCirc c /\ gs = map (@gate_act S) (in_order c)) ->
    Forall (@through S) gs /\ forall q, In q (range_names n) <-> exists g, In g gs /\ In q (on g).
  Proof.
    intros (W & P & (sh & E & L & U) & N) [->|(c & -> & ->)].
    - split; [constructor; auto; eapply whole_through; eauto|]. intros q.
      assert (Eo : on (whole a) = range_names n) by (unfold whole, gate_act; simpl; rewrite (shape_or_eq _ E), L; auto).
      split; [intros I; exists (whole a); rewrite Eo; simpl; auto|]. intros (g & [<-|[]] & I). rewrite Eo in I. auto.
    - inversion W as [| | | | | |? Nk Wk G|]; subst.
      assert (Fo : Forall (neat (length sh)) (in_order c)) by (eapply Permutation_Forall; [apply in_order_perm|auto]).
      split; [eapply neat_through; eauto; apply gates_order; auto|].
      destruct (neat_shape G E N) as (_ & _ & H). intros q. rewrite (H eq_refl q). split.
      + intros (k & g & I & J). exists (gate_act (k, g)). split; [|exact J]. apply in_map. eapply Permutation_in; [apply in_order_perm|exact I].
      + intros (g & I & J). apply in_map_iff in I as ([k g0] & <- & I). exists k, g0. split; [|exact J].
        eapply Permutation_in; [apply Permutation_sym, in_order_perm|exact I].
  Qed.
  Lemma range_compare n x y : In x (range_names n) -> In y (range_names n) -> exists r, name_lt x y = Ok r.
  Proof.
    intros I J. apply in_map_iff in I as (i & <- & _). apply in_map_iff in J as (j & <- & _). simpl. eauto.
  Qed.
  Lemma stacked_neat n t (l : circ op) : (forall k g, In (k, g) l -> incl (g_qubits g) (range_names n) /\ forallb role_unitary (shape_or (g_op g)) = true) ->
    Forall (neat n) (stacked_after t l).
  Proof.
    intros H. apply Forall_forall. intros [k g] I. apply stacked_In in I as (k0 & g0 & I & Eq & Eo & _ & Ek).
    destruct (H k0 g0 I). unfold neat; simpl. rewrite Eq, Eo in *. auto.
  Qed.
  Lemma stacked_slots t (l : circ op) : NoDup (map (@slot_of S) (stacked_after t l)).
  Proof.
    revert t. induction l as [|[k g] l IH]; intros t; cbn [stacked_after map]; constructor; auto.
    intros I. apply in_map_iff in I as ([k' g'] & E & I). apply stacked_In in I as (_ & _ & _ & _ & _ & L & _).
    unfold slot_of in E. simpl in E. inversion E. lia.
  Qed.
  (** the circuit that | makes *)
  Lemma or_form (a b : op) sa sb : op_wf a -> op_wf b -> op_shape a = Ok sa -> op_shape b = Ok sb -> left_free a ->
    exists c l, op_or a b = Ok (OCirc (c ++ stacked_after (1 + max_time c) l)) /\
      ((forall c', a <> OCirc c') /\ c = [] /\ l = [whole_gate a; whole_gate b] \/
       a = OCirc c /\ (exists d, b = OCirc d /\ l = in_order d) \/
       a = OCirc c /\ (forall d, b <> OCirc d) /\ l = [whole_gate b]).
  Proof.
    intros Wa Wb Ea Eb F.
    assert (Ha : (exists c, a = OCirc c) \/ (forall c, a <> OCirc c)) by (destruct a; eauto; right; congruence).
    assert (Hb : (exists d, b = OCirc d) \/ (forall d, b <> OCirc d)) by (destruct b; eauto; right; congruence).
    destruct Ha as [[c ->]|Na].
    - inversion Wa as [| | | | | |? Nk Wk G|]; subst. simpl in F. destruct Hb as [[d ->]|Nb].
      + inversion Wb as [| | | | | |? Nd Wd Gd|]; subst. exists c, (in_order d).
        simpl op_or. rewrite (copy_ok Nk G). cbn [bind]. rewrite (extend_ok (gates_order Gd) F). cbn [bind]. split; eauto 6.
      + exists c, [whole_gate b].
        assert (E : op_or (OCirc c) b = do c <- c_copy c []; do n <- op_len b; do r <- c_append b (range_names n) None None c; Ok (OCirc r)).
        { destruct b; auto. destruct (Nb c0); auto. }
        rewrite E, (copy_ok Nk G). cbn [bind]. rewrite (len_bind _ _ Eb), append_as_extend, (extend_ok (@whole_ok S b sb Eb) F). cbn [bind].
        split; auto 6.
    - exists [], [whole_gate a; whole_gate b].
      assert (G : gates_ok [whole_gate a; whole_gate b]).
      { intros k g [X|[X|[]]]; [apply (@whole_ok S a sa Ea k g)|apply (@whole_ok S b sb Eb k g)]; simpl; auto. }
      assert (F0 : late_names_free (S := S) []) by (intros t qs _ []).
      assert (E : op_or a b = do r <- c_extend [whole_gate a; whole_gate b] []; Ok (OCirc r)).
      { assert (E1 : op_or a b = do m <- op_len a; do c <- c_append a (range_names m) None None [];
                                 do n <- op_len b; do r <- c_append b (range_names n) None None c; Ok (OCirc r)).
        { destruct a; auto. destruct (Na c); auto. }
        rewrite E1. rewrite (len_bind _ _ Ea). cbn [c_extend whole_gate g_op g_qubits].
        destruct (c_append a (range_names (length (shape_or a))) None None []) as [c1|]; cbn [bind]; auto.
        rewrite (len_bind _ _ Eb). destruct (c_append b (range_names (length (shape_or b))) None None c1); auto. }
      rewrite E, (extend_ok G F0). cbn [bind]. split; auto.
  Qed.

  Lemma sorted_late (c : circ op) t l : StronglySorted (@earlier S) c -> (max_time c <= t)%Z ->
    StronglySorted (@earlier S) (c ++ stacked_after t l).
  Proof.
    intros Sc L. apply sorted_app; auto.
    - pose proof (stacked_sorted t l) as H. clear -H. induction H as [|p r S1 IH F]; constructor; auto.
      eapply Forall_impl; [|exact F]. unfold earlier. intros a La. apply Z.lt_le_incl. exact La.
    - intros x [k g] Ix Iy. apply stacked_In in Iy as (_ & _ & _ & _ & _ & L' & _). pose proof (max_time_le _ _ Ix). unfold earlier. simpl. lia.
  Qed.
  Theorem seq_ok n (a b : op) : lined n a -> lined n b -> n <> 0%nat ->
    exists c, op_or a b = Ok (OCirc c) /\ lined n (OCirc c) /\ meq n (op_amp (OCirc c)) (mmul n (op_amp b) (op_amp a)) /\
      (reversible a -> reversible b -> reversible (OCirc c)) /\ (controllable a -> controllable b -> controllable (OCirc c)).
  Proof.
    intros La Lb Nz. assert (La' := La). assert (Lb' := Lb).
    destruct La as (Wa & Pa & (sa & Ea & Lsa & Ua) & Na). destruct Lb as (Wb & Pb & (sb & Eb & Lsb & Ub) & Nb).
    assert (Fa : left_free a) by (destruct a; simpl; auto; eapply neat_free; eauto).
    destruct (unitary_count _ Lsa Ua) as [Coa Cia]. destruct (unitary_count _ Lsb Ub) as [Cob Cib].
    destruct (@part_through n a (first_part a) La') as [Ta Qa].
    { destruct a; simpl; eauto. }
    destruct (@part_through n b (second_part a b) Lb') as [Tb Qb].
    { destruct a; simpl; auto. destruct b; simpl; eauto. }
    assert (Tab : Forall (@through S) (first_part a ++ second_part a b)) by (apply Forall_app; auto).
    assert (Al : forall q, alternating (history (first_part a ++ second_part a b) q)).
    { intros q. destruct (@history_through S _ q Tab) as [->|(_ & _ & A)]; simpl; auto. }
    assert (Ew : forall q, ends_out (history (first_part a) q) = starts_in (history (second_part a b) q)).
    { intros q. destruct (mem q (range_names n)) eqn:M.
      - apply mem_In in M.
        destruct (wires_all [q] Ta) as [_ W1]; [intros x [<-|[]]; apply Qa; auto|].
        destruct (wires_all [q] Tb) as [W2 _]; [intros x [<-|[]]; apply Qb; auto|].
        unfold wires_out in W1. unfold wires_in in W2. simpl in W1, W2.
        destruct (ends_out (history (first_part a) q)); [|discriminate]. destruct (starts_in (history (second_part a b) q)); [auto|discriminate].
      - apply mem_false in M.
        assert (H0 : forall gs : list (act S), (forall q, In q (range_names n) <-> exists g, In g gs /\ In q (on g)) -> history gs q = []).
        { intros gs H. clear -M H. rewrite H in M. clear H. induction gs as [|g gs IH]; auto. rewrite history_cons, IH.
          - rewrite word_at_off; auto. intros I. apply M. exists g; simpl; auto.
          - intros (g' & I & J). apply M. exists g'. simpl; auto. }
        rewrite (H0 _ Qa), (H0 _ Qb). auto. }
    assert (Cmp : forall x y, acts_used (first_part a ++ second_part a b) x -> acts_used (first_part a ++ second_part a b) y -> x <> y -> exists r, name_lt x y = Ok r).
    { assert (H : forall x, acts_used (first_part a ++ second_part a b) x -> In x (range_names n)).
      { intros x (g & I & J). apply in_app_iff in I as [I|I]; [apply Qa|apply Qb]; eauto. }
      intros x y Ux Uy _. apply (range_compare n); auto. }
    destruct (or_ok Wa Wb Ea Eb Pa Pb Fa Al Cmp) as (r & sh & Q & Er & Wr & Pr & Es & HQ & _ & NQ & Co & Ci & _).
    destruct (C37_product Wa Wb Ea Eb Pa Pb Fa Al Ew Cmp) as (r' & v & va & vb & Er' & Ev & Eva & Evb & _ & V).
    rewrite Er in Er'. inversion Er'; subst r'. clear Er'.
    destruct (or_form Wa Wb Ea Eb Fa) as (c & l & Ef & Cases). rewrite Er in Ef.
    assert (Ef' : r = OCirc (c ++ stacked_after (1 + max_time c) l)) by congruence. subst r. clear Ef.
    set (d := c ++ stacked_after (1 + max_time c) l) in *.
    assert (Gl : forall k g, In (k, g) l -> incl (g_qubits g) (range_names n) /\ forallb role_unitary (shape_or (g_op g)) = true).
    { assert (Ha : forall k g, (k, g) = whole_gate a -> incl (g_qubits g) (range_names n) /\ forallb role_unitary (shape_or (g_op g)) = true).
      { intros k g X. injection X as -> ->. simpl. rewrite (shape_or_eq _ Ea), Lsa. split; auto; intros q; auto. }
      assert (Hb : forall k g, (k, g) = whole_gate b -> incl (g_qubits g) (range_names n) /\ forallb role_unitary (shape_or (g_op g)) = true).
      { intros k g X. injection X as -> ->. simpl. rewrite (shape_or_eq _ Eb), Lsb. split; auto; intros q; auto. }
      intros k g I. destruct Cases as [(_ & _ & ->)|[(_ & e & -> & ->)|(_ & _ & ->)]].
      - destruct I as [I|[I|[]]]; symmetry in I; [apply (Ha k)|apply (Hb k)]; exact I.
      - apply Permutation_in with (l' := e) in I; [|apply Permutation_sym, in_order_perm].
        rewrite Forall_forall in Nb. destruct (Nb _ I) as (_ & H1 & H2). auto.
      - destruct I as [I|[]]; symmetry in I; apply (Hb k); exact I. }
    assert (Nc : Forall (neat n) c) by (destruct Cases as [(_ & -> & _)|[(-> & _)|(-> & _)]]; auto).
    assert (Nd : Forall (neat n) d) by (apply Forall_app; split; auto; apply stacked_neat; auto).
    assert (Gd : gates_ok d) by (inversion Wr; auto).
    destruct (neat_shape Gd Es Nd) as (Us & _ & _).
    assert (Lsh : length sh = n).
    { rewrite <- (unitary_all _ role_out Us unitary_out), Co.
      assert (IQ : forall q, In q Q -> exists g, In g (first_part a ++ second_part a b) /\ In q (on g)) by (intros q Iq; apply HQ; auto).
      destruct (wires_all Q Tab IQ) as [_ ->].
      assert (P1 : incl Q (range_names n)).
      { intros q Iq. apply HQ in Iq as (g & I & J). apply in_app_iff in I as [I|I]; [apply Qa|apply Qb]; eauto. }
      assert (P2 : incl (range_names n) Q).
      { intros q Iq. apply HQ. apply Qa in Iq as (g & I & J). exists g. split; auto. apply in_app_iff; auto. }
      apply NoDup_incl_length in P1; auto. apply NoDup_incl_length in P2; [|apply range_NoDup]. rewrite range_length in *. lia. }
    assert (Ld : lined n (OCirc d)) by (split; auto; split; auto; split; eauto).
    exists d. split; auto. split; auto. split; [|split].
    - intros o i Bo Bi. destruct (lined_has Ld) as (w & Ew' & _ & Vw). rewrite Ev in Ew'. inversion Ew'; subst w.
      rewrite <- Vw by auto. rewrite V by (rewrite ?Cob, ?Cia; auto). unfold mmul. rewrite Coa. apply sumf_ext. intros m Im. apply in_words in Im.
      destruct (lined_has La') as (xa & E1 & _ & V1). destruct (lined_has Lb') as (xb & E2 & _ & V2).
      rewrite Eva in E1. inversion E1; subst xa. rewrite Evb in E2. inversion E2; subst xb. rewrite V1, V2; auto.
    - intros Ra Rb.
      assert (Rc : NoDup (map (@slot_of S) c) /\ forall k g, In (k, g) c -> reversible (g_op g)).
      { destruct Cases as [(_ & -> & _)|[(-> & _)|(-> & _)]]; [split; [constructor|intros ? ? []]|..]; inversion Ra; subst; auto. }
      constructor.
      + change (NoDup (map (@slot_of S) d)). unfold d. rewrite map_app. apply NoDup_app_iff. split; [apply Rc|]. split; [apply stacked_slots|].
        intros s I J. apply in_map_iff in I as (p & <- & I). apply in_map_iff in J as ([k g] & E & J).
        apply stacked_In in J as (_ & _ & _ & _ & _ & L & _). pose proof (max_time_le _ _ I).
        assert (g_time g = g_time (snd p)) by (unfold slot_of in E; cbn [snd] in E; congruence). lia.
      + intros k g I. unfold d in I. apply in_app_iff in I as [I|I]; [apply (proj2 Rc k g I)|].
        apply stacked_In in I as (k0 & g0 & I & _ & -> & _).
        destruct Cases as [(_ & _ & ->)|[(_ & e & -> & ->)|(_ & _ & ->)]].
        * destruct I as [I|[I|[]]]; inversion I; subst; auto.
        * apply Permutation_in with (l' := e) in I; [|apply Permutation_sym, in_order_perm]. inversion Rb; subst; eauto.
        * destruct I as [I|[]]; inversion I; subst; auto.
    - intros Ca Cb.
      assert (Cc : StronglySorted (@earlier S) c /\ forall k g, In (k, g) c -> controllable (g_op g)).
      { destruct Cases as [(_ & -> & _)|[(-> & _)|(-> & _)]]; [split; [constructor|intros ? ? []]|..]; inversion Ca; subst; auto. }
      apply ct_circ with (sh := sh); auto.
      + intros E0. rewrite E0 in Es. simpl in Es. inversion Es. subst sh. simpl in Lsh. auto.
      + apply sorted_late; [apply Cc|lia].
      + intros k g I. unfold d in I. apply in_app_iff in I as [I|I]; [apply (proj2 Cc k g I)|].
        apply stacked_In in I as (k0 & g0 & I & _ & -> & _).
        destruct Cases as [(_ & _ & ->)|[(_ & e & -> & ->)|(_ & _ & ->)]].
        * destruct I as [I|[I|[]]]; inversion I; subst; auto.
        * apply Permutation_in with (l' := e) in I; [|apply Permutation_sym, in_order_perm]. inversion Cb; subst; eauto.
        * destruct I as [I|[]]; inversion I; subst; auto.
  Qed.

  (** *** a * b *)
  Theorem par_ok m n (a b : op) : lined m a -> lined n b -> m <> 0%nat -> n <> 0%nat ->
    exists c, op_mul a b = Ok (OCirc c) /\ lined (m + n) (OCirc c) /\ meq (m + n) (op_amp (OCirc c)) (mkron m (op_amp a) (op_amp b)) /\
      (reversible a -> reversible b -> reversible (OCirc c)) /\ (controllable a -> controllable b -> controllable (OCirc c)).
  Proof.
    intros La Lb Nm Nn. assert (La' := La). assert (Lb' := Lb).
    destruct La as (Wa & Pa & (sa & Ea & Lsa & Ua) & Na). destruct Lb as (Wb & Pb & (sb & Eb & Lsb & Ub) & Nb).
    destruct (unitary_count _ Lsa Ua) as [Coa Cia]. destruct (unitary_count _ Lsb Ub) as [Cob Cib].
    assert (Ne : sa ++ sb <> []) by (destruct sa; simpl; [simpl in Lsa; congruence|congruence]).
    assert (Alt : forall r, In r (sa ++ sb) -> alternating (role_word r)).
    { intros r Ir. assert (U : role_unitary r = true).
      { apply in_app_iff in Ir as [Ir|Ir]; [rewrite forallb_forall in Ua|rewrite forallb_forall in Ub]; auto. }
      destruct (unitary_eq _ U) as [-> | ->]; simpl; repeat split; congruence. }
    destruct (mul_ok Wa Wb Ea Eb Pa Pb Ne Alt) as (r & sh & v & Er & Wr & Pr & Es & Lsh & Co & Ci & Ev & _ & _ & V).
    destruct (mul_eq _ _ Ea Eb Ne) as [Er' Nk]. rewrite Er in Er'. rewrite Lsa, Lsb in *.
    set (c := [(NT [NI 0; NT (range_names m)], Gate 0%Z (range_names m) a); (NT [NI 0; NT (names_from m n)], Gate 0%Z (names_from m n) b)]) in *.
    inversion Er'; subst r. clear Er'.
    assert (Nc : Forall (neat (m + n)) c).
    { constructor; [|constructor; [|constructor]]; unfold neat; simpl; split; auto; split.
      - intros q Iq. rewrite range_split. apply in_app_iff; auto.
      - rewrite (shape_or_eq _ Ea); auto.
      - intros q Iq. rewrite range_split. apply in_app_iff; auto.
      - rewrite (shape_or_eq _ Eb); auto. }
    assert (Gc : gates_ok c) by (inversion Wr; auto).
    destruct (neat_shape Gc Es Nc) as (Us & _ & _).
    assert (Lc : lined (m + n) (OCirc c)) by (split; auto; split; auto; split; eauto).
    exists c. split; auto. split; auto. split; [|split].
    - intros o i Bo Bi. destruct (lined_has Lc) as (w & Ew' & _ & Vw). rewrite Ev in Ew'. inversion Ew'; subst w.
      rewrite <- Vw by auto. apply bits_cut in Bo as [B1 B2]. apply bits_cut in Bi as [B3 B4]. unfold mkron.
      rewrite <- (firstn_skipn m o) at 1. rewrite <- (firstn_skipn m i) at 1. rewrite V; rewrite ?Coa, ?Cob, ?Cia, ?Cib; auto.
    - intros Ra Rb. constructor.
      + constructor; [|repeat constructor; auto]. simpl. intros [E|[]]. inversion Nk as [|? ? X _]; subst. apply X. left. simpl. congruence.
      + intros k g [E|[E|[]]]; inversion E; subst; auto.
    - intros Ca Cb. apply ct_circ with (sh := sh); auto.
      + discriminate.
      + repeat constructor; unfold earlier; simpl; lia.
      + intros k g [E|[E|[]]]; inversion E; subst; auto.
  Qed.

  (** *** ~a *)
  Lemma unitary_flip sh : forallb role_unitary sh = true -> forallb role_unitary (map flip_role sh) = true.
  Proof.
    intros U. apply forallb_forall. intros r Ir. apply in_map_iff in Ir as (r0 & <- & Ir). rewrite forallb_forall in U. specialize (U r0 Ir).
    destruct (unitary_eq _ U) as [-> | ->]; auto.
  Qed.
  Theorem inv_ok n (a : op) : lined n a -> reversible a ->
    exists x, adj a = Ok x /\ lined n x /\ meq n (op_amp x) (madj (op_amp a)) /\ reversible x /\
      ((forall c, a <> OCirc c) -> (forall c, x <> OCirc c) /\ (controllable a -> controllable x)) /\
      (forall c, a = OCirc c -> exists d, x = OCirc d).
  Proof.
    intros (W & P & (sh & E & L & U) & N) R. destruct (adj_ok W R P E) as (x & Ex & Wx & Rx & Px & Esx & Am).
    destruct (unitary_count _ L U) as [Co Ci].
    assert (Hc : forall c, a = OCirc c -> exists d, x = OCirc d /\ Forall (neat n) d).
    { intros c ->. assert (W0 := W). inversion W as [| | | | | |? Nk Wg G|]; subst. inversion R as [| | | | |? Ns Rg]; subst.
      assert (G' : gates_ok c) by exact G.
      assert (H : forall k g, In (k, g) c -> exists b, adj_spec (g_op g) b (shape_or (g_op g))).
      { intros k g I. destruct (pure_circ _ P) as [_ Pg]. apply adj_ok; eauto.
        destruct (G k g I) as [_ Lg]. apply op_len_shape in Lg as [Lg _]. auto. }
      destruct (@adj_gates_ok S (max_time c) c []) as (d & Ec & F); auto. simpl in Ec. exists d.
      assert (Ed : adj (OCirc c) = Ok (OCirc d)).
      { change (adj (OCirc c)) with (do p <- op_pure (OCirc c); if p then do r <- adj_gates (max_time c) c []; Ok (OCirc r) else Err ValueError).
        rewrite P. cbn [bind]. rewrite Ec. auto. }
      rewrite Ex in Ed. inversion Ed. split; auto. apply Forall_forall. intros [k g] I.
      destruct (Forall2_in_r _ F I) as ([k0 g0] & I0 & (E1 & E2 & E3 & B)). simpl in *. rewrite Forall_forall in N.
      destruct (N _ I0) as (_ & N2 & N3). unfold neat. simpl in *. rewrite E1, E2, E3. split; auto. split; auto.
      destruct B as (_ & _ & _ & _ & B & _). rewrite (shape_or_eq _ B). apply unitary_flip; auto. }
    exists x. split; auto. split; [|split; [|split; [auto|split]]].
    - split; auto. split; auto. split; [exists (map flip_role sh); rewrite map_length; auto using unitary_flip|].
      destruct x as [| | | | | |d|]; auto.
      assert (Ha : (exists c, a = OCirc c) \/ (forall c, a <> OCirc c)) by (destruct a; eauto; right; congruence).
      destruct Ha as [[c Ea]|Na]; [destruct (Hc c Ea) as (d' & Ed & H); inversion Ed; subst; auto|].
      exfalso. destruct R; simpl in Ex; try congruence.
      + destruct sa; [congruence|]. destruct (v_conj d0); simpl in Ex; [|congruence]. destruct (v_transpose _ _); simpl in Ex; [|congruence].
        unfold mk_pure in Ex. destruct (shape_is _ _); congruence.
      + destruct sa; [congruence|]. destruct (v_conj d0); simpl in Ex; [|congruence]. destruct (v_transpose _ _); simpl in Ex; [|congruence].
        unfold mk_ctrl in Ex. destruct (shape_is _ _); congruence.
      + match type of Ex with bind ?t _ = _ => destruct t end; simpl in Ex; congruence.
    - intros o i Bo Bi. unfold madj. apply Am; rewrite ?Co, ?Ci; auto.
    - intros Na.
      assert (Ux : forallb role_unitary (map flip_role sh) = true) by (apply unitary_flip; auto).
      destruct R; simpl in Ex.
      + destruct sa; [inversion Ex; subst; split; [congruence|auto]|]. destruct (v_conj d); simpl in Ex; [|congruence]. destruct (v_transpose _ _); simpl in Ex; [|congruence].
        unfold mk_pure in Ex. destruct (shape_is _ _); inversion Ex; subst x. split; [congruence|]. intros _. constructor. simpl in E. inversion E; subst. auto.
      + destruct sa; [inversion Ex; subst; split; [congruence|auto]|]. destruct (v_conj d); simpl in Ex; [|congruence]. destruct (v_transpose _ _); simpl in Ex; [|congruence].
        unfold mk_ctrl in Ex. destruct (shape_is _ _); inversion Ex; subst x. split; [congruence|]. intros _. constructor. simpl in E. inversion E; subst. auto.
      + simpl in E. inversion E; subst. discriminate.
      + simpl in E. inversion E; subst. discriminate.
      + match type of Ex with bind ?t _ = _ => destruct t as [w|] end; simpl in Ex; [|congruence]. inversion Ex; subst x. split; [congruence|]. intros _.
        eapply ct_super; eauto.
      + destruct (Na c); auto.
    - intros c Ec. destruct (Hc c Ec) as (d & -> & _). eauto.
  Qed.
  (** *** Controlled(a, cond) *)
  Theorem ctl_ok' n cond (a : op) : lined n a -> controllable a ->
    exists x, controlled cond a = Ok x /\ lined (Datatypes.S n) x /\ meq (Datatypes.S n) (op_amp x) (mctrl cond (op_amp a)) /\
      (forall c, x <> OCirc c) /\ ((forall c, a <> OCirc c) -> controllable x /\ reversible x).
  Proof.
    intros (W & P & (sh & E & L & U) & N) C. destruct (controlled_ok cond W C P E) as (x & Ex & Wx & Px & Es & (v & Ev & _ & Sv & V) & Cx).
    destruct (unitary_count _ L U) as [Co Ci].
    assert (Nx : (forall c, x <> OCirc c) /\ ((forall c, a <> OCirc c) -> exists sa s d, x = OCtrl sa s d /\ sa = false)).
    { assert (Ha : (exists c, a = OCirc c) \/ (forall c, a <> OCirc c)) by (destruct a; eauto; right; congruence).
      destruct Ha as [[c ->]|Na].
      - simpl in Ex. unfold controlled_circuit in Ex. destruct (may_control _ _); cbn [bind] in Ex; [|discriminate].
        split; [congruence|]. intros X. destruct (X c); auto.
      - assert (E1 : controlled cond a = do _ <- may_control (op_pure a) (op_shape a); do d <- tensor_control a; do sh <- op_shape a;
                       mk_ctrl false (RC :: sh) (stacked cond sh d)) by (destruct a; auto; destruct (Na c); auto).
        rewrite E1 in Ex. destruct (may_control _ _); cbn [bind] in Ex; [|discriminate]. destruct (tensor_control a) as [td|]; cbn [bind] in Ex; [|discriminate].
        rewrite E in Ex. cbn [bind] in Ex. unfold mk_ctrl in Ex. destruct (shape_is _ _); [|discriminate].
        split; [congruence|]. intros _. exists false, (RC :: sh), (stacked cond sh td). split; congruence. }
    assert (Lx : lined (Datatypes.S n) x).
    { split; auto. split; auto. split; [exists (RC :: sh); simpl; rewrite L, U; auto|]. destruct x; auto. destruct (proj1 Nx c); auto. }
    exists x. split; auto. split; auto. split; [|split; [apply Nx|]].
    - intros o i Bo Bi. destruct (lined_has Lx) as (w & Ew & _ & Vw). rewrite Ev in Ew. inversion Ew; subst w. rewrite <- Vw by auto.
      unfold count in V. simpl in V. fold (count role_out sh) in V. fold (count role_in sh) in V. rewrite Co, Ci in V. rewrite V by auto.
      apply bits_uncons in Bo as (p & o' & -> & _ & _). apply bits_uncons in Bi as (q & i' & -> & _ & _). unfold when_amp, mctrl, mone, bit.
      destruct (Nat.eqb p q); [|apply kmul_0_l]. change (kdelta true) with (1 : S). rewrite kmul_1_l. destruct cond; auto.
    - intros Na. split; [apply Cx; auto|]. destruct (proj2 Nx Na) as (sa & s & d & -> & ->). constructor. discriminate.
  Qed.
End Lined.

Section Expr.
  Variable S : scalar.
  Local Open Scope K_scope.
  Theorem expr_ok (e : expr S) : good e ->
    exists x, eval e = Ok x /\ lined (width e) x /\ width e <> 0%nat /\ meq (width e) (op_amp x) (den e) /\
      ((exists c, x = OCirc c) <-> is_circuit e = true) /\
      (can_adj e = true -> reversible x) /\ (can_ctrl e = true -> controllable x).
  Proof.
    induction e as [x|a IHa b IHb|a IHa b IHb|a IHa|cond a IHa]; intros G; cbn [good] in G.
    - destruct G as (W & P & R & Nc & sh & E & Ne & U). exists x. cbn [eval width is_circuit den]. rewrite E.
      assert (Lx : lined (length sh) x) by (split; auto; split; auto; split; [eauto|]; destruct x; auto; destruct (Nc c); auto).
      split; auto. split; auto. split; [destruct sh; simpl; congruence|]. split; [|split; [|split; auto]].
      + intros o i Bo Bi. destruct (lined_has Lx) as (v & Ev & _ & V). rewrite Ev, V; auto.
      + split; [intros [c ->]; destruct (Nc c); auto|discriminate].
      + intros _. destruct R; simpl in E; try (inversion E; subst; constructor; auto; fail).
        * inversion E; subst; discriminate.
        * inversion E; subst; discriminate.
        * eapply ct_super; eauto.
        * destruct (Nc c); auto.
    - destruct G as (Ga & Gb & Ew). destruct (IHa Ga) as (x & Ex & Lx & Nx & Mx & Cx & Rx & Tx). destruct (IHb Gb) as (y & Ey & Ly & Ny & My & Cy & Ry & Ty).
      rewrite <- Ew in *. destruct (seq_ok Lx Ly Nx) as (c & Ec & Lc & Mc & Rc & Tc).
      exists (OCirc c). cbn [eval width is_circuit den]. rewrite Ex, Ey. cbn [bind]. split; auto. split; auto. split; auto. split; [|split; [|split]].
      + eapply meq_trans; [exact Mc|]. apply mmul_ext; auto.
      + split; eauto.
      + cbn [can_adj]. intros H. apply andb_prop in H as [H1 H2]. auto.
      + cbn [can_ctrl]. intros H. apply andb_prop in H as [H1 H2]. auto.
    - destruct G as (Ga & Gb). destruct (IHa Ga) as (x & Ex & Lx & Nx & Mx & Cx & Rx & Tx). destruct (IHb Gb) as (y & Ey & Ly & Ny & My & Cy & Ry & Ty).
      destruct (par_ok Lx Ly Nx Ny) as (c & Ec & Lc & Mc & Rc & Tc).
      exists (OCirc c). cbn [eval width is_circuit den]. rewrite Ex, Ey. cbn [bind]. split; auto. split; auto. split; [lia|]. split; [|split; [|split]].
      + eapply meq_trans; [exact Mc|]. apply mkron_ext; auto.
      + split; eauto.
      + cbn [can_adj]. intros H. apply andb_prop in H as [H1 H2]. auto.
      + cbn [can_ctrl]. intros H. apply andb_prop in H as [H1 H2]. auto.
    - destruct G as (Ga & Ha). destruct (IHa Ga) as (x & Ex & Lx & Nx & Mx & Cx & Rx & Tx).
      destruct (inv_ok Lx (Rx Ha)) as (y & Ey & Ly & My & Ry & Hy & Hc).
      exists y. cbn [eval width is_circuit den]. rewrite Ex. cbn [bind]. split; auto. split; auto. split; auto. split; [|split; [|split; auto]].
      + eapply meq_trans; [exact My|]. apply madj_ext; auto.
      + rewrite <- Cx. split; [|intros [c Ec]; eauto]. intros [c ->].
        assert (Hx : (exists c, x = OCirc c) \/ (forall c, x <> OCirc c)) by (destruct x; eauto; right; congruence).
        destruct Hx as [Hx|Hx]; auto. destruct (Hy Hx) as [X _]. destruct (X c); auto.
      + cbn [can_ctrl]. intros H. apply andb_prop in H as [H1 H2]. apply negb_true_iff in H2. apply Hy; auto.
        intros c Ec. assert (is_circuit a = true) by (apply Cx; eauto). congruence.
    - destruct G as (Ga & Ha). destruct (IHa Ga) as (x & Ex & Lx & Nx & Mx & Cx & Rx & Tx).
      destruct (ctl_ok' cond Lx (Tx Ha)) as (y & Ey & Ly & My & Ny & Hy).
      exists y. cbn [eval width is_circuit den]. rewrite Ex. cbn [bind]. split; auto. split; auto. split; [lia|]. split; [|split; [|split]].
      + eapply meq_trans; [exact My|]. apply mctrl_ext; auto.
      + split; [intros [c ->]; destruct (Ny c); auto|discriminate].
      + cbn [can_adj]. intros H. apply negb_true_iff in H. apply Hy. intros c Ec. assert (is_circuit a = true) by (apply Cx; eauto). congruence.
      + cbn [can_ctrl]. intros H. apply negb_true_iff in H. apply Hy. intros c Ec. assert (is_circuit a = true) by (apply Cx; eauto). congruence.
  Qed.
  Theorem expr_unitary (e : expr S) : good e -> unitary_gates e -> munitary (width e) (den e).
  Proof.
    induction e as [x|a IHa b IHb|a IHa b IHb|a IHa|cond a IHa]; intros G U; cbn [good unitary_gates] in *; auto; cbn [width den].
    - destruct G as (Ga & Gb & E). apply unitary_mul; [rewrite E; apply IHb; tauto|apply IHa; tauto].
    - apply unitary_kron; [apply IHa|apply IHb]; tauto.
    - apply unitary_adj. apply IHa; tauto.
    - apply unitary_ctrl. apply IHa; tauto.
  Qed.
End Expr.
