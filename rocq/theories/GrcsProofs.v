(** * The circuit of a file and its amplitudes *)
From Coq Require Import Reals Lra Lia Ascii String Sorting.Permutation Sorting.Sorted.
From Verif Require Import Base Scalar NetSpec Sums NetAlg ModelArray ModelTN TNInv TNValue ModelVal ModelOps OpsSpec ModelContract ModelNest NestSpec NameOrder CircSpec CircSum CircOrder ModelCircuit CircSem
  CircShape CircWhen CircWire CircCtrl CircOp CircMain CircBuild CircUse CircExpr CircNest NoiseAdd MatSpec MatProofs CoreSpec Complex GateSpec ModelGates GateProofs ModelGhz GhzProofs Props_Ghz ModelGrcs GrcsSpec GrcsLine.
Set Implicit Arguments.
Open Scope nat_scope.

Definition entry_of (p : instr * op CK) : name * gate (op CK) :=
  (NT [NI (i_layer (fst p)); NT (qnames (i_targets (fst p)))], Gate (i_layer (fst p)) (qnames (i_targets (fst p))) (snd p)).
Definition init_of (s : Z) (n q : nat) : name * gate (op CK) :=
  (NT [NI (-1); NT [qubit q]], Gate (-1) [qubit q] (OState (Z.testbit s (Z.of_nat (n - q - 1))))).
Definition good_pair (p : instr * op CK) : Prop := good_gate (length (i_targets (fst p))) (snd p) (i_mat (fst p)) /\ i_targets (fst p) <> [].
Definition file_circ (s : Z) (n : nat) (P : list (instr * op CK)) : circ (op CK) := map (init_of s n) (seq 0 n) ++ map entry_of P.

Fixpoint put_all (P : list (instr * op CK)) (c : circ (op CK)) : res (circ (op CK)) :=
  match P with
  | [] => Ok c
  | (x, g) :: r => do c <- c_append g (qnames (i_targets x)) (Some (i_layer x)) None c; put_all r c
  end.
Lemma lines_pairs io fo lines xs : Forall2 (reads io fo) lines xs ->
  exists P, map fst P = xs /\ Forall good_pair P /\ forall c, grcs_lines io fo lines c = put_all P c.
Proof.
  induction 1 as [|l x lines xs Rd _ (P & Ex & G & H)]; [exists []; auto|].
  destruct (line_ok Rd) as (g & Gg & Nt & Hl). exists ((x, g) :: P). split; [cbn [map fst]; f_equal; auto|]. split; [constructor; auto; split; auto|].
  intros c. cbn [grcs_lines put_all]. rewrite Hl. destruct (c_append g _ _ _ c); [|reflexivity]. cbn [bind]. apply H.
Qed.
Lemma qnames_NoDup ts : NoDup ts -> NoDup (qnames ts).
Proof. intros N. apply FinFun.Injective_map_NoDup; auto. intros a b E. injection E. lia. Qed.
Lemma good_len k g A : good_gate k g A -> op_len g = Ok k.
Proof. intros (_ & _ & _ & (sh & E & L & _) & _). unfold op_len. rewrite E. cbn [bind]. congruence. Qed.
Lemma put_all_ok : forall P c, Forall good_pair P -> Forall (fun p => NoDup (i_targets (fst p))) P -> NoDup (keys (c ++ map entry_of P)) ->
  put_all P c = Ok (c ++ map entry_of P).
Proof.
  induction P as [|[x g] P IH]; intros c G Nt Nk; [cbn [map put_all]; rewrite app_nil_r; auto|].
  inversion G as [|? ? [Gx _] G']; subst. inversion Nt as [|? ? Nx Nt']; subst. cbn [fst snd] in *. cbn [put_all map].
  assert (E : c_append g (qnames (i_targets x)) (Some (i_layer x)) None c = Ok (c ++ [entry_of (x, g)])).
  { apply c_append_ok. split; [apply qnames_NoDup; auto|]. split; [rewrite (good_len Gx); unfold qnames; rewrite map_length; auto|].
    cbn [slot label]. rewrite set_fresh; [reflexivity|]. unfold keys in *. rewrite map_app in Nk. apply NoDup_app_iff in Nk as (_ & _ & D). intros I. apply (D _ I). left. reflexivity. }
  rewrite E. cbn [bind]. rewrite IH; auto; [rewrite <- app_assoc; reflexivity|]. rewrite <- app_assoc. exact Nk.
Qed.
Lemma init_ok s n : forall l c, NoDup (keys (c ++ map (init_of s n) l)) -> grcs_init s n l c = Ok (c ++ map (init_of s n) l).
Proof.
  induction l as [|q l IH]; intros c Nk; cbn [grcs_init map]; [rewrite app_nil_r; auto|].
  assert (E : c_append (OState (Z.testbit s (Z.of_nat (n - q - 1)))) [NI (Z.of_nat q)] (Some (-1)%Z) None c = Ok (c ++ [init_of s n q])).
  { apply c_append_ok. split; [repeat constructor; simpl; tauto|]. split; [reflexivity|]. cbn [slot label]. rewrite set_fresh; [reflexivity|].
    cbn [map] in Nk. unfold keys in *. rewrite map_app in Nk. apply NoDup_app_iff in Nk as (_ & _ & D). intros I. apply (D _ I). left. reflexivity. }
  rewrite E. cbn [bind]. rewrite IH; [rewrite <- app_assoc; reflexivity|]. rewrite <- app_assoc. exact Nk.
Qed.

Section File.
  Variables (s : Z) (n : nat).
  Notation Q := (range_names n).
  Variable P : list (instr * op CK).
  Hypothesis Gp : Forall good_pair P.
  Hypothesis Pl : placed n (map fst P).
  Notation c := (file_circ s n P).

  Lemma qnames_inj a b : qnames a = qnames b -> a = b.
  Proof.
    revert b; induction a as [|x a IH]; intros [|y b] E; try discriminate; auto. cbn in E. injection E as E1 E2. f_equal; [lia|auto].
  Qed.
  Lemma pair_of p : In p P -> good_pair p /\ NoDup (i_targets (fst p)) /\ Forall (fun t => t < n) (i_targets (fst p)) /\ (0 <= i_layer (fst p))%Z.
  Proof.
    intros I. destruct Pl as [F _]. rewrite Forall_forall in Gp, F. split; auto. apply F. apply in_map; auto.
  Qed.
  Lemma file_keys : NoDup (keys c).
  Proof.
    unfold file_circ, keys. rewrite map_app, !map_map. apply NoDup_app_iff. split; [|split].
    - apply FinFun.Injective_map_NoDup; [|apply seq_NoDup]. intros a b E. injection E. lia.
    - destruct Pl as [_ Fo]. clear Pl. induction P as [|p l IH]; [constructor|]. cbn [map] in *. inversion Gp as [|? ? Gp0 Gp']; subst. inversion Fo as [|? ? Fp Fo']; subst. constructor; [|apply IH; auto].
      intros I. apply in_map_iff in I as (p' & E & I). cbn [entry_of fst] in E. injection E as E1 E2.
      apply qnames_inj in E2. rewrite Forall_forall in Fp. specialize (Fp _ (in_map fst _ _ I) (eq_sym E1)). destruct Gp0 as [_ Nz].
      destruct (i_targets (fst p)) as [|t ts] eqn:Et; [congruence|]. apply (Fp t); [simpl; auto|]. rewrite E2. simpl; auto.
    - intros k I J. apply in_map_iff in I as (q & <- & _). apply in_map_iff in J as (p & E & I). cbn [entry_of init_of fst] in E. injection E as E _.
      destruct (pair_of _ I) as (_ & _ & _ & L). lia.
  Qed.
  Lemma file_In k g : In (k, g) c -> (exists q, q < n /\ (k, g) = init_of s n q) \/ (exists p, In p P /\ (k, g) = entry_of p).
  Proof.
    unfold file_circ. rewrite in_app_iff, !in_map_iff. intros [(q & E & I)|(p & E & I)]; [left|right; eauto]. apply in_seq in I. exists q. split; [lia|auto].
  Qed.
  Lemma file_gates : gates_ok c.
  Proof.
    intros k g I. destruct (file_In _ _ I) as [(q & L & E)|(p & Ip & E)]; injection E as -> ->; cbn [g_qubits g_op].
    - split; [repeat constructor; simpl; tauto|reflexivity].
    - destruct (pair_of _ Ip) as ((G & _) & N & _). split; [apply qnames_NoDup; auto|]. rewrite (good_len G). unfold qnames. rewrite map_length. auto.
  Qed.
  Lemma file_wf : op_wf (OCirc c).
  Proof.
    constructor; [apply file_keys| |apply file_gates]. intros k g I. destruct (file_In _ _ I) as [(q & L & E)|(p & Ip & E)]; injection E as -> ->; cbn [g_op]; [constructor|].
    destruct (pair_of _ Ip) as ((G & _) & _). apply G.
  Qed.
  Lemma file_plain : plain_op (OCirc c).
  Proof.
    constructor. intros k t qs a I. destruct (file_In _ _ I) as [(q & L & E)|(p & Ip & E)]; injection E as -> -> -> ->.
    - split; [left; eauto|constructor].
    - split; [left; eauto|]. destruct (pair_of _ Ip) as ((G & _) & _). apply G.
  Qed.
  Lemma file_used q : used c q <-> In q Q.
  Proof.
    unfold range_names. rewrite in_map_iff. split.
    - intros (k & g & I & J). destruct (file_In _ _ I) as [(j & L & E)|(p & Ip & E)]; injection E as -> ->; cbn [g_qubits] in J.
      + destruct J as [<-|[]]. exists j. split; auto. apply in_seq. lia.
      + unfold qnames in J. apply in_map_iff in J as (t & <- & It). exists t. split; auto. apply in_seq. destruct (pair_of _ Ip) as (_ & _ & F & _). rewrite Forall_forall in F. specialize (F _ It). lia.
    - intros (j & <- & I). exists (fst (init_of s n j)), (snd (init_of s n j)). split; [|left; reflexivity]. unfold file_circ. apply in_app_iff. left. apply in_map_iff. exists j. auto.
  Qed.
  Lemma file_register : register c Q /\ all_qubits c = Ok Q.
  Proof. apply range_register. apply file_used. Qed.
  Lemma file_apart : apart_ok (map_circ (@spec_of CK) c).
  Proof.
    unfold apart_ok, tacts, map_circ, file_circ. rewrite map_map, map_app, !map_map.
    assert (Ap : forall (A : list (timed CK)) B, ForallOrdPairs (@same_time_apart CK) A -> ForallOrdPairs (@same_time_apart CK) B ->
      (forall a b, In a A -> In b B -> fst a <> fst b) -> ForallOrdPairs (@same_time_apart CK) (A ++ B)).
    { clear. intros A B FA FB D. induction FA as [|a A Fa FA IH]; auto. cbn [app]. constructor; [|apply IH; intros; apply D; simpl; auto].
      rewrite Forall_app. split; auto. apply Forall_forall. intros b Ib E. exfalso. apply (D a b); simpl; auto. }
    apply Ap.
    - generalize (seq_NoDup n 0). generalize (seq 0 n). clear. intros l N. induction N as [|q l Nq N IH]; [constructor|]. cbn [map]. constructor; auto.
      rewrite Forall_map. apply Forall_forall. intros r Ir _ x [<-|[]] [E|[]]. apply qubit_inj in E. subst. contradiction.
    - destruct Pl as [_ Fo]. clear -Fo. induction P as [|p l IH]; [constructor|]. cbn [map] in *. inversion Fo as [|? ? Fp Fo']; subst. constructor; auto.
      rewrite Forall_map in *. eapply Forall_impl; [|exact Fp]. intros p' H E x I J. cbn in E. specialize (H E).
      cbn in I, J. unfold qnames in I, J. apply in_map_iff in I as (t & <- & It). apply in_map_iff in J as (t' & E' & It'). injection E' as E'. apply Nat2Z.inj in E'. subst t'. apply (H t); auto.
    - intros a b I J E. apply in_map_iff in I as (q & <- & _). apply in_map_iff in J as (p & <- & Ip). cbn in E. destruct (pair_of _ Ip) as (_ & _ & _ & L). lia.
  Qed.

  (** any order of the instructions by layer *)
  Variable P' : list (instr * op CK).
  Hypothesis Pm : Permutation P P'.
  Hypothesis So : StronglySorted (fun p q => (i_layer (fst p) <= i_layer (fst q))%Z) P'.
  Notation c' := (file_circ s n P').
  Lemma pair_of' p : In p P' -> good_pair p /\ NoDup (i_targets (fst p)) /\ Forall (fun t => t < n) (i_targets (fst p)) /\ (0 <= i_layer (fst p))%Z.
  Proof. intros I. apply pair_of. eapply Permutation_in; [apply Permutation_sym, Pm|exact I]. Qed.
  Lemma file_ordered : time_ordered c c'.
  Proof.
    split; [apply Permutation_app_head, Permutation_map, Pm|]. unfold file_circ. apply sorted_app.
    - generalize (seq 0 n). induction l as [|q l IH]; cbn [map]; constructor; auto. rewrite Forall_map. apply Forall_forall. intros r _. unfold earlier. simpl. lia.
    - clear -So. induction So as [|p l S1 IH F]; cbn [map]; constructor; auto. rewrite Forall_map. eapply Forall_impl; [|exact F]. intros q L. exact L.
    - intros x y I J. apply in_map_iff in I as (q & <- & _). apply in_map_iff in J as (p & <- & Ip). destruct (pair_of' _ Ip) as (_ & _ & _ & L). unfold earlier. simpl. lia.
  Qed.

  Definition state_act (q : nat) : act CK := gate_act (init_of s n q).
  Definition line_act (p : instr * op CK) : act CK := gate_act (entry_of p).
  Lemma acts_file : map (@gate_act CK) c' = map state_act (seq 0 n) ++ map line_act P'.
  Proof. unfold file_circ. rewrite map_app, !map_map. reflexivity. Qed.
  Lemma line_through p : In p P' -> through (line_act p).
  Proof.
    intros I. destruct (pair_of' _ I) as (((_ & _ & _ & (sh & E & L & U) & _) & _) & _). unfold line_act, gate_act. apply gact_through with (sh := sh); auto.
    cbn. unfold qnames. rewrite map_length. auto.
  Qed.
  Lemma state_word q x : word_at (state_act q) x = if eqb x (qubit q) then [LO] else [].
  Proof. unfold word_at. cbn. destruct (eqb x (qubit q)); auto. Qed.
  Lemma twos_io k : concat (repeat [LI; LO] k) = io k.
  Proof. induction k; simpl; auto. f_equal. f_equal. auto. Qed.
  Lemma file_hist q : exists k, history (map (@gate_act CK) c') q = (if existsb (fun j => eqb q (qubit j)) (seq 0 n) then [LO] else []) ++ io k.
  Proof.
    rewrite acts_file, history_app. destruct (@history_twos CK (map line_act P') q) as [k ->].
    { apply Forall_forall. intros g I. apply in_map_iff in I as (p & <- & Ip). apply line_through; auto. }
    exists k. rewrite twos_io. f_equal. generalize (seq_NoDup n 0). generalize (seq 0 n). clear. intros l N. induction N as [|j l Nj N IH]; auto.
    cbn [map existsb]. unfold history in *. cbn [map concat]. rewrite IH, state_word. destruct (eqb_spec q (qubit j)) as [->|_]; [|reflexivity].
    replace (existsb _ l) with false; [reflexivity|]. symmetry. apply not_true_is_false. intros H. apply existsb_exists in H as (i & Ii & H). apply (proj1 (eqb_eq _ _)) in H. apply qubit_inj in H. subst. contradiction.
  Qed.
  Lemma hist_in q : In q Q -> exists k, history (map (@gate_act CK) c') q = LO :: io k.
  Proof.
    intros I. destruct (file_hist q) as [k E]. exists k. rewrite E. replace (existsb _ _) with true; auto. symmetry. apply existsb_exists.
    unfold range_names in I. apply in_map_iff in I as (j & <- & I). exists j. split; auto. apply eqb_refl.
  Qed.
  Lemma io_alt' k : alternating (io k).
  Proof. destruct k as [|k]; [exact I|]. cbn [io]. split; [discriminate|]. exact (io_alt k). Qed.
  Lemma file_alt q : alternating (history (map (@gate_act CK) c') q).
  Proof. destruct (file_hist q) as [k ->]. destruct (existsb _ _); cbn [app]; [apply io_alt|apply io_alt']. Qed.
  Lemma file_shape : op_shape (OCirc c) = Ok (repeat (RW [LO]) n).
  Proof.
    destruct file_register as [Rg AQ]. destruct file_ordered as [Pe St].
    destruct (@shape_exists CK c c' Q file_gates file_apart Pe St file_alt AQ) as [sh E]. rewrite E. f_equal.
    destruct (circ_known file_gates E file_ordered Rg) as (_ & _ & _ & _ & -> & _).
    transitivity (map (fun _ : name => RW [LO]) Q).
    - apply map_ext_in. intros q I. destruct (hist_in _ I) as [k ->]. f_equal. apply truncate_io.
    - unfold range_names. rewrite map_map. generalize 0. clear. induction n as [|m IH]; intros i; simpl; f_equal; auto.
  Qed.
  Lemma file_pure : op_pure (OCirc c) = Ok true.
  Proof.
    apply (@pure_all c _ file_shape). intros k t qs x I. destruct (file_In _ _ I) as [(q & L & E)|(p & Ip & E)]; injection E as -> -> -> ->; [reflexivity|].
    destruct (pair_of _ Ip) as ((G & _) & _). apply G.
  Qed.

  (** ** the state *)
  Local Open Scope K_scope.
  Add Ring Kring_grcs : (kring CK).
  Notation env := (env (A := name)).
  Definition sbit (q : nat) : nat := bit (Z.testbit s (Z.of_nat (n - q - 1))).
  Lemma state_step q (psi : env -> CK) e : In (qubit q) Q -> depends_on (S := CK) Q psi -> (forall x, In x Q -> (e x < 2)%nat) ->
    evolve Q (state_act q) psi e = kdelta (Nat.eqb (e (qubit q)) (sbit q)) * psi (upd e (qubit q) 0%nat).
  Proof.
    intros I D B. rewrite evolve_closed; auto; [|apply range_NoDup|repeat constructor; simpl; tauto|intros x [<-|[]]; auto].
    assert (A : forallb (fun x => after_ok (word_at (state_act q) x) (e x)) Q = true).
    { apply forallb_forall. intros x _. rewrite state_word. destruct (eqb x (qubit q)); reflexivity. }
    assert (Ai : act_ins (state_act q) = []). { unfold act_ins. change (filter (fun x => starts_in (word_at (state_act q) x)) [qubit q] = []). cbn [filter]. rewrite state_word, eqb_refl. reflexivity. }
    assert (Ao : act_outs (state_act q) = [qubit q]). { unfold act_outs. change (filter (fun x => ends_out (word_at (state_act q) x)) [qubit q] = [qubit q]). cbn [filter]. rewrite state_word, eqb_refl. reflexivity. }
    rewrite A, Ai, Ao. cbn [qdom map esum]. rewrite (D _ (upd e (qubit q) 0%nat)).
    - change (amp (state_act q) [e (qubit q)] []) with (kdelta (S := CK) (eqb [e (qubit q)] [sbit q])).
      cbn [kdelta]. rewrite eqb_cons. change (eqb (@nil nat) []) with true. rewrite andb_true_r. change (eqb (e (qubit q)) (sbit q)) with (Nat.eqb (e (qubit q)) (sbit q)). ring.
    - intros x _. unfold pre0. rewrite state_word. unfold upd. destruct (eqb x (qubit q)); auto.
  Qed.
  Definition bits_on (e : env) : Prop := forall x, In x Q -> (e x < 2)%nat.
  (** the first [k] qubits are prepared *)
  Definition part (k : nat) (e : env) : bool := forallb (fun j => Nat.eqb (e (qubit j)) (if (j <? k)%nat then sbit j else 0%nat)) (seq 0 n).
  Lemma part_true k e : part k e = true <-> forall j, (j < n)%nat -> e (qubit j) = if (j <? k)%nat then sbit j else 0%nat.
  Proof.
    unfold part. rewrite forallb_forall. split; intros H j I.
    - apply Nat.eqb_eq. apply H. apply in_seq. lia.
    - apply Nat.eqb_eq. apply H. apply in_seq in I. lia.
  Qed.
  Lemma inQ j : (j < n)%nat -> In (qubit j) Q.
  Proof. intros L. unfold range_names. apply in_map_iff. exists j. split; auto. apply in_seq. lia. Qed.
  Lemma part_depends k : depends_on (S := CK) Q (fun e => kdelta (part k e)).
  Proof.
    intros e e' E. f_equal. apply eq_true_iff_eq. rewrite !part_true. split; intros H j L; specialize (H j L); specialize (E _ (inQ L)); congruence.
  Qed.
  Lemma part_step k e : (k < n)%nat -> bits_on e -> evolve Q (state_act k) (fun e => kdelta (part k e)) e = kdelta (part (Datatypes.S k) e).
  Proof.
    intros L B. rewrite state_step; auto; [|apply inQ; auto|apply part_depends].
    assert (H : part (Datatypes.S k) e = Nat.eqb (e (qubit k)) (sbit k) && part k (upd e (qubit k) 0%nat)).
    { apply eq_true_iff_eq. rewrite andb_true_iff, !part_true, Nat.eqb_eq. split.
      - intros H. split.
        + specialize (H k L). replace (k <? Datatypes.S k)%nat with true in H by (symmetry; apply Nat.ltb_lt; lia). exact H.
        + intros j Lj. destruct (Nat.eq_dec j k) as [->|N].
          * rewrite upd_eq, Nat.ltb_irrefl. reflexivity.
          * rewrite upd_neq by (intros E; apply qubit_inj in E; contradiction). rewrite H by auto. destruct (Nat.ltb_spec j k), (Nat.ltb_spec j (Datatypes.S k)); auto; lia.
      - intros [H1 H2] j Lj. destruct (Nat.eq_dec j k) as [->|N].
        + replace (k <? Datatypes.S k)%nat with true by (symmetry; apply Nat.ltb_lt; lia). exact H1.
        + specialize (H2 j Lj). rewrite upd_neq in H2 by (intros E; apply qubit_inj in E; contradiction). rewrite H2. destruct (Nat.ltb_spec j k), (Nat.ltb_spec j (Datatypes.S k)); auto; lia. }
    rewrite H. destruct (Nat.eqb _ _), (part k _); cbn [andb kdelta]; ring.
  Qed.
  Lemma run_states : forall m k psi, (k + m <= n)%nat -> (forall e, bits_on e -> psi e = kdelta (part k e)) ->
    forall e, bits_on e -> run Q (map state_act (seq k m)) psi e = kdelta (part (k + m) e).
  Proof.
    induction m as [|m IH]; intros k psi L H e B.
    - cbn [seq map run fold_left]. rewrite Nat.add_0_r. auto.
    - cbn [seq map run fold_left]. rewrite <- Nat.add_succ_comm. apply IH; [lia| |exact B].
      intros x Bx. rewrite <- part_step by (auto; lia). apply CircOrder.evolve_ext; [apply range_NoDup|]. exact H.
  Qed.
  Lemma init_state e : bits_on e -> run Q (map state_act (seq 0 n)) (basis Q env0) e = start s n (map e Q).
  Proof.
    intros B. rewrite (@run_states n 0 (basis Q env0)); auto.
    - unfold start. f_equal. apply eq_true_iff_eq. rewrite part_true, eqb_eq. unfold binary, range_names. rewrite map_map. split.
      + intros H. apply map_ext_in. intros j I. apply in_seq in I. fold (qubit j). rewrite H by lia. replace (j <? 0 + n)%nat with true by (symmetry; apply Nat.ltb_lt; lia).
        unfold sbit, bit. replace (n - 1 - j)%nat with (n - j - 1)%nat by lia. reflexivity.
      + intros H j L. replace (j <? 0 + n)%nat with true by (symmetry; apply Nat.ltb_lt; lia).
        assert (E := f_equal (fun l => nth j l 0%nat) H). cbn beta in E.
        rewrite (nth_indep _ 0%nat (e (NI (Z.of_nat 0)))) in E by (rewrite map_length, seq_length; auto).
        rewrite (map_nth (fun x => e (NI (Z.of_nat x)))) in E. rewrite seq_nth in E by auto.
        set (f := fun j => if Z.testbit s (Z.of_nat (n - 1 - j)) then 1%nat else 0%nat) in E. rewrite (nth_indep (map f (seq 0 n)) 0%nat (f 0%nat)) in E by (rewrite map_length, seq_length; auto).
        rewrite (map_nth f), seq_nth in E by auto. cbn [Nat.add] in E. unfold qubit. rewrite E. unfold f, sbit, bit. replace (n - 1 - j)%nat with (n - j - 1)%nat by lia. reflexivity.
    - intros x Bx. unfold basis. f_equal. apply eq_true_iff_eq. rewrite part_true, forallb_forall. split.
      + intros H j L. apply Nat.eqb_eq. apply (H (qubit j)). apply inQ; auto.
      + intros H q I. unfold range_names in I. apply in_map_iff in I as (j & <- & I). apply in_seq in I. apply Nat.eqb_eq. apply (H j). lia.
  Qed.

  (** a gate *)
  Lemma upds_put : forall ts bs (e : env) j, NoDup ts -> length ts = length bs ->
    upds e (qnames ts) bs (qubit j) = match get j (combine ts bs) with Some v => v | None => e (qubit j) end.
  Proof.
    induction ts as [|t ts IH]; intros [|b bs] e j N L; try discriminate; [reflexivity|]. inversion N as [|? ? Nt N']; subst. cbn [qnames map upds combine get]. fold (qubit t).
    change (map (fun t => NI (Z.of_nat t)) ts) with (qnames ts). rewrite IH by (auto; simpl in L; lia). destruct (eqb_spec j t) as [->|Ne].
    - replace (get t (combine ts bs)) with (@None nat); [apply upd_eq|]. symmetry. destruct (get t (combine ts bs)) eqn:G; auto. apply get_In in G. apply in_combine_l in G. contradiction.
    - rewrite upd_neq by (intros E; apply qubit_inj in E; contradiction). reflexivity.
  Qed.
  Lemma line_step p (psi : env -> CK) v e : In p P' -> depends_on (S := CK) Q psi -> (forall x, bits_on x -> psi x = v (map x Q)) -> bits_on e ->
    evolve Q (line_act p) psi e = apply (fst p) v (map e Q).
  Proof.
    intros I D H B. destruct (pair_of' _ I) as (((W & Pu & _ & Sh & M) & Nz) & N & F & _). destruct p as [x g]. cbn [fst snd] in *.
    assert (Inc : incl (qnames (i_targets x)) Q).
    { intros q J. unfold qnames in J. apply in_map_iff in J as (t & <- & It). apply inQ. rewrite Forall_forall in F. auto. }
    rewrite evolve_through; auto; [|apply range_NoDup|apply qnames_NoDup; auto|exact (line_through _ I)].
    change (on (line_act (x, g))) with (qnames (i_targets x)). change (amp (line_act (x, g))) with (op_amp g). rewrite esum_bits. unfold apply, words2.
    assert (Ln : length (qnames (i_targets x)) = length (i_targets x)) by (unfold qnames; apply map_length). rewrite Ln.
    apply sumf_ext. intros b Ib. apply in_bits in Ib. destruct Ib as [Lb Fb].
    assert (Nthe : forall (f : env) j, (j < n)%nat -> nth j (map f Q) 0%nat = f (qubit j)).
    { intros f j L. unfold range_names. rewrite map_map. rewrite (nth_indep _ 0%nat (f (NI (Z.of_nat 0)))) by (rewrite map_length, seq_length; auto).
      rewrite (map_nth (fun x => f (NI (Z.of_nat x)))), seq_nth by auto. reflexivity. }
    assert (Bx : bits_on (upds e (qnames (i_targets x)) b)) by (intros q J; apply upds_bit; auto).
    rewrite upds_map by (auto using qnames_NoDup; lia). rewrite H by exact Bx.
    assert (E1 : pick (map e Q) (i_targets x) = map e (qnames (i_targets x))).
    { unfold pick, qnames. rewrite map_map. apply map_ext_in. intros t It. rewrite Forall_forall in F. rewrite Nthe by auto. reflexivity. }
    assert (E2 : put (map e Q) (i_targets x) b = map (upds e (qnames (i_targets x)) b) Q).
    { unfold put. rewrite map_length, range_length. unfold range_names at 2. rewrite map_map. apply map_ext_in. intros j J. apply in_seq in J. fold (qubit j).
      rewrite upds_put by (auto; lia). destruct (get j _); auto. rewrite Nthe by lia. reflexivity. }
    rewrite E1, E2. rewrite M; [reflexivity| |split; auto]. split; [rewrite map_length; auto|]. rewrite Forall_map. apply Forall_forall. intros q J. apply B. auto.
  Qed.
  Lemma line_on p : In p P' -> incl (on (line_act p)) Q.
  Proof.
    intros I q J. destruct (pair_of' _ I) as (_ & _ & F & _). change (on (line_act p)) with (qnames (i_targets (fst p))) in J. unfold qnames in J. apply in_map_iff in J as (t & <- & It).
    apply inQ. rewrite Forall_forall in F. auto.
  Qed.
  Lemma run_lines : forall l psi v, incl l P' -> depends_on (S := CK) Q psi -> (forall x, bits_on x -> psi x = v (map x Q)) ->
    forall e, bits_on e -> run Q (map line_act l) psi e = run_all (map fst l) v (map e Q).
  Proof.
    induction l as [|p l IH]; intros psi v I D H e B; [apply H; auto|]. cbn [map run fold_left]. unfold run_all. cbn [fold_left].
    assert (Ip : In p P') by (apply I; simpl; auto).
    apply IH; [intros x J; apply I; simpl; auto|apply evolve_depends, line_on; auto| |exact B].
    intros x Bx. apply line_step; auto.
  Qed.
  Lemma run_depends : forall gs (psi : env -> CK), (forall g, In g gs -> incl (on g) Q) -> depends_on (S := CK) Q psi -> depends_on (S := CK) Q (run Q gs psi).
  Proof.
    induction gs as [|g gs IH]; intros psi I D; auto. cbn [run fold_left]. apply IH; [intros h J; apply I; simpl; auto|]. apply evolve_depends. apply I. simpl; auto.
  Qed.
  Lemma file_amp o : bits n o -> op_amp (OCirc c) o [] = run_all (map fst P') (start s n) o.
  Proof.
    intros B. destruct file_register as [Rg _]. destruct (circ_known file_gates file_shape file_ordered Rg) as (_ & _ & _ & _ & _ & _ & Co & Am).
    assert (Wo : wires_out Q (map (@gate_act CK) c') = Q).
    { unfold wires_out. apply CircWhen.filter_all. intros q I. destruct (hist_in _ I) as [k ->]. apply io_out. }
    assert (Wi : wires_in Q (map (@gate_act CK) c') = []).
    { unfold wires_in. apply filter_empty. intros q I. destruct (hist_in _ I) as [k ->]. reflexivity. }
    rewrite Am by (rewrite Co, Wo, range_length; auto). unfold amplitude. rewrite Wo, Wi. unfold place at 1. cbn [upds]. rewrite acts_file, run_app.
    destruct B as [Lo Fo].
    assert (Bo : bits_on (place Q o)) by (intros q _; apply upds_bit; auto; unfold env0; lia).
    rewrite (@run_lines P' _ (start s n)); auto.
    - f_equal. unfold place. apply upds_map; [apply range_NoDup|rewrite range_length; auto].
    - intros q; auto.
    - apply run_depends; [|]. 
      + intros g I. apply in_map_iff in I as (j & <- & J). apply in_seq in J. intros q [<-|[]]. apply inQ. lia.
      + intros e e' E. unfold basis. f_equal. apply eq_true_iff_eq. rewrite !forallb_forall. split; intros H q I; specialize (H q I); specialize (E q I); congruence.
    - intros x Bx. apply init_state; auto.
  Qed.
End File.
