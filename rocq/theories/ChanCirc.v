(** Circuits of channels: trace, Kraus operators. *)
From Coq Require Import Sorting.Permutation Sorting.Sorted.
From Verif Require Import Base Scalar NetSpec Sums NetAlg ModelArray ModelTN TNInv TNOps TNSpec TNValue TNExact TNEdit
  TNEdit2 ModelVal ModelOps OpsSpec OpsProofs OpsValue ModelContract ContractExec NameOrder CircSpec CircSum CircOrder ModelCircuit CircSem CircShape
  CircWire CircStep CircNet CircCtrl CircWhen CircOp CircMain CircBuild CircAdj DensSpec CircDens CircDensNet CircDensOp CircPure MatSpec MatProofs NoiseSpec ChanTrace.
Set Implicit Arguments.

Section Chan.
  Variable S : scalar.
  Notation tval := (tval S).
  Notation op := (op S).
  Notation env := (env (A := name)).
  Local Open Scope K_scope.
  Add Ring Kring_chan : (kring S).

  Definition xc (p : name * gate op) : cact S := CAct (g_qubits (snd p)) (map role_word (shape_or (g_op (snd p)))) (op_dens (g_op (snd p))).
  Lemma chan_facts (c : circ op) sh : gates_ok c -> op_shape (OCirc c) = Ok sh ->
    exists Q, NoDup Q /\ op_dens (OCirc c) = channel Q (map xc (in_order c)) /\
      (forall p, In p (in_order c) -> In p c /\ fits (xc p) /\ NoDup (c_on (xc p)) /\ incl (c_on (xc p)) Q /\
         op_shape (g_op (snd p)) = Ok (shape_or (g_op (snd p))) /\
         length (act_outs (skel (xc p))) = count role_out (shape_or (g_op (snd p))) /\
         length (act_ins (skel (xc p))) = count role_in (shape_or (g_op (snd p)))) /\
      (forall q, alternating (history (map (@skel S) (map xc (in_order c))) q)) /\
      count role_out sh = length (wires_out Q (map (@skel S) (map xc (in_order c)))) /\
      count role_in sh = length (wires_in Q (map (@skel S) (map xc (in_order c)))).
  Proof.
    intros G Es. destruct (circ_facts G Es) as (Q & AQ & Ap & Al & Gk & _ & Co & Ci & Am).
    destruct (all_qubits_spec _ AQ) as (NQ & _ & MQ). exists Q. split; auto.
    assert (Hh : forall q, history (map (@skel S) (map xc (in_order c))) q = history (circ_acts (map_circ (@spec_of S) c)) q).
    { intros q. apply words_history. unfold circ_acts. rewrite !in_order_map. unfold map_circ. rewrite !map_map.
      generalize (in_order c) as l. clear. induction l as [|[k [t u a]] l IH]; simpl; constructor; auto. }
    split.
    { rewrite opdens_circ. unfold circ_chan. rewrite all_qubits_map, AQ. f_equal. rewrite in_order_map. unfold map_circ.
      rewrite !map_map. apply map_ext. intros [k [t u a]]. reflexivity. }
    split.
    { intros [k g] Ip. apply (Permutation_in _ (Permutation_sym (in_order_perm c))) in Ip. split; auto.
      destruct (G k g Ip) as [Nq L]. apply op_len_shape in L as [L1 L2].
      assert (F : length (g_qubits g) = length (map role_word (shape_or (g_op g)))) by (rewrite map_length; auto).
      split; [exact F|]. split; [exact Nq|]. split; [intros q Iq; apply MQ, qubits_In; exists (k, g); auto|]. split; [exact L1|].
      split; [apply act_outs_count; auto|apply act_ins_count; auto]. }
    split; [intros q; rewrite Hh; apply Al|].
    rewrite Co, Ci. split; f_equal; apply filter_ext; intros q; rewrite Hh; auto.
  Qed.

  (** ** The trace *)
  Theorem circ_preserves (c : circ op) sh : op_wf (OCirc c) -> no_super (OCirc c) -> op_shape (OCirc c) = Ok sh ->
    (forall k g, In (k, g) c -> preserves_trace (g_op g)) -> preserves_trace (OCirc c).
  Proof.
    intros W Ns Es H. inversion W as [| | | | | |? N Wg G|]; subst. inversion Ns as [| | | | | |? NsI]; subst.
    destruct (dens_ok W Ns Es) as (v & Ev & _ & Sv & Vv). exists sh, v. split; auto. split; auto. apply unital_preserving.
    eapply unital_ext; [intros; symmetry; apply Vv; auto|].
    destruct (chan_facts G Es) as (Q & NQ & -> & Hp & Al & -> & ->).
    apply channel_unital; auto. rewrite Forall_map. apply Forall_forall. intros p Ip.
    destruct (Hp p Ip) as (Ic & F & No & I & Sp & Lo & Li). split; auto. split; auto. split; auto. rewrite Lo, Li. cbn [c_chan xc].
    destruct p as [k g]. cbn [snd] in *. destruct (H k g Ic) as (s & v' & Es' & Ev' & Tr). rewrite Sp in Es'. injection Es' as <-.
    destruct (dens_ok (Wg k g Ic) (NsI k g Ic) Sp) as (v'' & Ev'' & _ & _ & V''). rewrite Ev' in Ev''. injection Ev'' as <-.
    apply preserving_unital in Tr. eapply unital_ext; [|exact Tr]. intros. apply V''; auto.
  Qed.

  (** ** Kraus operators *)
  Lemma evolve_sum {X} Q qs ws (F : X -> ampl S) l psi e :
    evolve Q (Act qs ws (fun o i => sumf (fun x => F x o i) l)) psi e = sumf (fun x => evolve Q (Act qs ws (F x)) psi e) l.
  Proof.
    unfold evolve. rewrite <- esum_sumf. apply esum_ext_all. intros b. unfold matrix. cbn [amp].
    rewrite <- sumf_mul_l. rewrite <- sumf_mul_r. apply sumf_ext. intros x _.
    change (word_at (Act qs ws (F x))) with (word_at (Act qs ws (fun o i => sumf (fun x => F x o i) l))).
    change (act_outs (Act qs ws (F x))) with (act_outs (Act qs ws (fun o i => sumf (fun x => F x o i) l))).
    change (act_ins (Act qs ws (F x))) with (act_ins (Act qs ws (fun o i => sumf (fun x => F x o i) l))). ring.
  Qed.
  Lemma evolve_lin {X} Q g (psi : X -> env -> S) l e : evolve Q g (fun e => sumf (fun x => psi x e) l) e = sumf (fun x => evolve Q g (psi x) e) l.
  Proof.
    unfold evolve. rewrite <- esum_sumf. apply esum_ext_all. intros b. rewrite <- sumf_mul_l. auto.
  Qed.
  Lemma evolve_ext_all Q (g : act S) psi psi' e : (forall b, psi b = psi' b) -> evolve Q g psi e = evolve Q g psi' e.
  Proof. intros E. unfold evolve. apply esum_ext_all. intros b. rewrite E; auto. Qed.
  Lemma run_ext_all Q (gs : list (act S)) : forall psi psi' e, (forall b, psi b = psi' b) -> run Q gs psi e = run Q gs psi' e.
  Proof.
    induction gs as [|g gs IH]; intros psi psi' e E; [apply E|]. unfold run in *. cbn [fold_left]. apply IH. intros b. apply evolve_ext_all; auto.
  Qed.
  Lemma run_lin {X} Q gs : forall (psi : X -> env -> S) l e, run Q gs (fun e => sumf (fun x => psi x e) l) e = sumf (fun x => run Q gs (psi x) e) l.
  Proof.
    induction gs as [|g gs IH]; intros psi l e; auto. unfold run in *. cbn [fold_left].
    rewrite <- (IH (fun x => evolve Q g (psi x))). apply run_ext_all. intros b. apply evolve_lin.
  Qed.

  (** an operation on wires with its Kraus operators *)
  Definition family : Type := (list name * list word * list (mat S))%type.
  Definition kact (f : family) : cact S := CAct (fst (fst f)) (snd (fst f)) (kraus (snd f)).
  Fixpoint choices (fs : list family) : list (list (act S)) :=
    match fs with
    | [] => [[]]
    | (qs, ws, Ks) :: fs => flat_map (fun K => map (cons (Act qs ws K)) (choices fs)) Ks
    end.
  Lemma run_choices Q fs : forall psi e,
    run (both Q) (map (@dbl S) (map kact fs)) psi e = sumf (fun gs => run (both Q) (map (fun g => dbl (ca g)) gs) psi e) (choices fs).
  Proof.
    induction fs as [|[[qs ws] Ks] fs IH]; intros psi e; [simpl; ring|]. cbn [map choices]. unfold run at 1. cbn [fold_left].
    change (run (both Q) (map (@dbl S) (map kact fs)) (evolve (both Q) (dbl (kact (qs, ws, Ks))) psi) e =
      sumf (fun gs => run (both Q) (map (fun g => dbl (ca g)) gs) psi e) (flat_map (fun K => map (cons (Act qs ws K)) (choices fs)) Ks)).
    rewrite sumf_flat_map.
    rewrite (@run_ext_all (both Q) _ _ (fun e => sumf (fun K => evolve (both Q) (dbl (ca (Act qs ws K))) psi e) Ks)).
    2:{ intros b. apply (evolve_sum (both Q) (both qs) (ws ++ ws)). }
    rewrite run_lin. apply sumf_ext. intros K _. rewrite IH, sumf_map. auto.
  Qed.
  Lemma choices_on fs gs : In gs (choices fs) -> Forall2 (fun f g => fst (fst f) = on g /\ snd (fst f) = words g) fs gs.
  Proof.
    revert gs; induction fs as [|[[qs ws] Ks] fs IH]; intros gs I; cbn [choices] in I.
    - destruct I as [<-|[]]. constructor.
    - apply in_flat_map in I as (K & _ & I). apply in_map_iff in I as (r & <- & Ir). constructor; auto.
  Qed.
  Theorem channel_kraus Q fs o i o' i' : NoDup Q -> Forall (fun f => fits (kact f) /\ incl (fst (fst f)) Q) fs ->
    length o = length (wires_out Q (map (@skel S) (map kact fs))) -> length i = length (wires_in Q (map (@skel S) (map kact fs))) ->
    channel Q (map kact fs) o i o' i' = kraus (map (amplitude Q) (choices fs)) o i o' i'.
  Proof.
    intros NQ F Lo Li. unfold kraus. rewrite sumf_map. unfold channel, amplitude at 1.
    rewrite run_choices. apply sumf_ext. intros gs Ig. pose proof (@choices_on fs gs Ig) as Fo.
    assert (Hh : forall q, history (map (@skel S) (map kact fs)) q = history gs q).
    { intros q. apply words_history. clear -Fo. induction Fo as [|f g fs gs [E1 E2] Fo IH]; simpl; constructor; auto. }
    assert (Hg : forall g, In g gs -> length (on g) = length (words g) /\ incl (on g) Q).
    { clear -Fo F. induction Fo as [|f g fs gs [E1 E2] Fo IH]; intros x Ix; [destruct Ix|]. inversion F as [|? ? [F1 F2]]; subst. destruct Ix as [<-|Ix]; [|apply IH; auto].
      unfold fits in F1. cbn [kact c_on c_words] in F1. rewrite E1, E2 in F1. rewrite E1 in F2. auto. }
    assert (Wo : wires_out Q (map (@skel S) (map kact fs)) = wires_out Q gs) by (apply filter_ext; intros q; rewrite Hh; auto).
    assert (Wi : wires_in Q (map (@skel S) (map kact fs)) = wires_in Q gs) by (apply filter_ext; intros q; rewrite Hh; auto).
    rewrite <- (@channel_pure S Q gs o i o' i'); auto; try congruence. unfold channel, amplitude. rewrite (map_map (@ca S) (@dbl S)).
    assert (Ff : Forall (@fits S) (map kact fs)) by (rewrite Forall_map; eapply Forall_impl; [|exact F]; intros f Hf; apply Hf).
    assert (Ff' : Forall (@fits S) (map (@ca S) gs)) by (rewrite Forall_map; apply Forall_forall; intros g I; apply (Hg g I)).
    rewrite dbl_wires_out, dbl_wires_in by auto. 
    assert (E1 : wires_out (both Q) (map (fun g => dbl (ca g)) gs) = both (wires_out Q gs)).
    { rewrite <- (map_map (@ca S) (@dbl S)), dbl_wires_out by auto. f_equal. apply filter_ext. intros q. f_equal. rewrite map_map. clear. induction gs as [|g gs IH]; auto. cbn [map]. rewrite !history_cons, IH. auto. }
    assert (E2 : wires_in (both Q) (map (fun g => dbl (ca g)) gs) = both (wires_in Q gs)).
    { rewrite <- (map_map (@ca S) (@dbl S)), dbl_wires_in by auto. f_equal. apply filter_ext. intros q. f_equal. rewrite map_map. clear. induction gs as [|g gs IH]; auto. cbn [map]. rewrite !history_cons, IH. auto. }
    rewrite E1, E2, Wo, Wi. auto.
  Qed.

  Theorem circ_kraus (c : circ op) sh : op_wf (OCirc c) -> no_super (OCirc c) -> op_shape (OCirc c) = Ok sh ->
    (forall k g, In (k, g) c -> exists Ks, has_kraus (g_op g) Ks) -> exists Ks, has_kraus (OCirc c) Ks.
  Proof.
    intros W Ns Es H. inversion W as [| | | | | |? N Wg G|]; subst. inversion Ns as [| | | | | |? NsI]; subst.
    destruct (dens_ok W Ns Es) as (v & Ev & _ & Sv & Vv).
    destruct (chan_facts G Es) as (Q & NQ & Ed & Hp & Al & Co & Ci).
    assert (C : exists fs, Forall2 (fun p f => fst (fst f) = c_on (xc p) /\ snd (fst f) = c_words (xc p) /\
       forall o i o' i', bits (length (act_outs (skel (xc p)))) o -> bits (length (act_ins (skel (xc p)))) i ->
         bits (length (act_outs (skel (xc p)))) o' -> bits (length (act_ins (skel (xc p)))) i' ->
         c_chan (xc p) o i o' i' = kraus (snd f) o i o' i') (in_order c) fs).
    { revert Hp. generalize (in_order c) as l. clear -H NsI Wg. induction l as [|p l IH]; intros Hp; [exists []; constructor|].
      destruct IH as [fs Ffs]; [intros x Ix; apply Hp; simpl; auto|].
      destruct (Hp p) as (Ic & F & No & I & Sp & Lo & Li); [simpl; auto|]. destruct p as [k g]. cbn [snd] in *.
      destruct (H k g Ic) as (Ks & s & Es' & v' & Ev' & _ & V'). rewrite Sp in Es'. injection Es' as <-.
      destruct (dens_ok (Wg k g Ic) (NsI k g Ic) Sp) as (v'' & Ev'' & _ & _ & V''). rewrite Ev' in Ev''. injection Ev'' as <-.
      exists ((c_on (xc (k, g)), c_words (xc (k, g)), Ks) :: fs). constructor; auto. split; auto. split; auto.
      rewrite Lo, Li. intros. cbn [xc c_chan snd]. rewrite <- V'' by auto. apply V'; auto. }
    destruct C as [fs Ffs]. exists (map (amplitude Q) (choices fs)). exists sh. split; auto. exists v. split; auto. split; auto.
    intros o i o' i' Bo Bi Bo' Bi'. unfold entries_of. rewrite Vv by auto. rewrite Ed.
    assert (Hf : forall q, history (map (@skel S) (map kact fs)) q = history (map (@skel S) (map xc (in_order c))) q).
    { intros q. apply words_history. clear -Ffs. induction Ffs as [|p f l fs (E1 & E2 & _) Ffs IH]; simpl; constructor; auto. }
    assert (Wo : wires_out Q (map (@skel S) (map kact fs)) = wires_out Q (map (@skel S) (map xc (in_order c)))) by (apply filter_ext; intros q; rewrite Hf; auto).
    assert (Wi : wires_in Q (map (@skel S) (map kact fs)) = wires_in Q (map (@skel S) (map xc (in_order c)))) by (apply filter_ext; intros q; rewrite Hf; auto).
    assert (Ok_f : Forall (fun f => fits (kact f) /\ incl (fst (fst f)) Q) fs).
    { clear -Ffs Hp. induction Ffs as [|p f l fs (E1 & E2 & _) Ffs IH]; constructor.
      - destruct (Hp p) as (_ & F & _ & I & _); [simpl; auto|]. unfold fits in *. cbn [kact c_on c_words]. rewrite E1, E2. auto.
      - apply IH. intros x Ix. apply Hp; simpl; auto. }
    rewrite <- channel_kraus; auto; [|rewrite Wo, <- Co; apply Bo|rewrite Wi, <- Ci; apply Bi].
    assert (Fx : Forall (@fits S) (map xc (in_order c))) by (rewrite Forall_map; apply Forall_forall; intros p Ip; apply (Hp p Ip)).
    unfold channel. apply amplitude_same; auto.
    - apply both_NoDup; auto.
    - clear -Ffs Hp. induction Ffs as [|p f l fs (E1 & E2 & E3) Ffs IH]; simpl; constructor; [|apply IH; intros x Ix; apply Hp; simpl; auto].
      destruct (Hp p) as (_ & F & _ & I & _); [simpl; auto|]. split; [cbn [dbl on kact c_on]; rewrite E1; auto|].
      split; [cbn [dbl words kact c_words]; rewrite E2; auto|]. intros o i Bo Bi. rewrite dbl_outs in Bo by exact F. rewrite dbl_ins in Bi by exact F.
      destruct Bo as [L3 F3], Bi as [L4 F4]. unfold both in L3, L4. rewrite app_length, !map_length in L3, L4.
      unfold dbl. cbn [amp]. cbn [c_chan kact].
      assert (Sk : skel (kact f) = skel (xc p)) by (unfold skel, kact; cbn [c_on c_words]; rewrite E1, E2; auto). rewrite Sk.
      destruct (@Forall_cut _ (fun b => b < 2)%nat (length (act_outs (skel (xc p)))) o F3).
      destruct (@Forall_cut _ (fun b => b < 2)%nat (length (act_ins (skel (xc p)))) i F4).
      apply E3; (split; [rewrite ?firstn_length, ?skipn_length; lia|auto]).
    - intros g Ig. rewrite map_map in Ig. apply in_map_iff in Ig as (p & <- & Ip). apply both_incl. apply (Hp p Ip).
    - rewrite dbl_wires_out by auto. unfold both. rewrite app_length, !map_length. rewrite Co in Bo, Bo'. apply bits_app; auto.
  Qed.
End Chan.
