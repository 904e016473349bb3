(** * A circuit that is one operation preparing some qubits *)
From Coq Require Import Sorting.Permutation Sorting.Sorted.
From Verif Require Import Base Scalar NetSpec Sums NetAlg ModelArray ModelTN TNSpec ModelVal ModelOps OpsSpec ModelContract NameOrder CircSpec CircSum CircOrder ModelCircuit CircSem CircShape CircWire
  CircCtrl CircMain CircBuild CircUse DensSpec CircDens CircDensNet CircDensOp CircPure ChanCirc ChanTrace CircFlat FlatSpec CircNest CircNest2 CircNest3 ModelNoise NoisySpec NoiseAdd NoiseAdd2 NoiseAdd4
  MatSpec MeasureSpec MeasEvolve MeasRun MeasExtend MeasFacts.
Set Implicit Arguments.

Section One.
  Variable S : scalar.
  Notation op := (op S).
  Local Open Scope K_scope.

  Lemma pure_total (o : op) : op_wf o -> forall sh, op_shape o = Ok sh -> exists b, op_pure o = Ok b.
  Proof.
    induction 1 as [sa sh d Cd Nc Sd|sa sh d Cd Sd|b|b|sh d Cd Nc Sd|l ins outs Ne W IH Pu Po|c N W IH G|cond c W IH Pc Cc]; intros s Es; try (eexists; reflexivity).
    change (op_pure (OCirc c)) with (do v <- is_ok (op_shape (OCirc c)); if v then (fix go (l : circ op) := match l with | [] => Ok true | (_, Gate _ _ a) :: r => do b <- op_pure a; do w <- go r; Ok (b && w) end) c else Ok false). rewrite Es. cbn [is_ok bind]. clear Es N.
    induction c as [|[k [t qs a]] r IHr]; [eexists; reflexivity|].
    assert (Es : exists s', op_shape a = Ok s').
    { destruct (G k (Gate t qs a)) as [_ L]; [left; auto|]. unfold op_len in L. cbn [g_op] in L. destruct (op_shape a); [eauto|discriminate]. }
    destruct Es as [s' Es]. destruct (IH k (Gate t qs a)) with (sh := s') as [b Eb]; [left; auto|exact Es|]. cbn [g_op] in Eb. rewrite Eb. cbn [bind].
    destruct IHr as [b' Eb']; try (intros k' g' I'; first [eapply W|eapply IH|eapply G]; right; eauto). rewrite Eb'. cbn [bind]. eauto.
  Qed.

  Lemma map_repeat {A B} (f : A -> B) a n : map f (repeat a n) = repeat (f a) n. Proof. induction n as [|n IH]; auto. cbn. f_equal. auto. Qed.
  Lemma prep_in n : count role_in (repeat (RW [LO]) n) = 0%nat. Proof. induction n; auto. Qed.
  Lemma prep_out n : count role_out (repeat (RW [LO]) n) = n. Proof. induction n as [|n IH]; auto. cbn. f_equal. auto. Qed.

  Context (o : op) (qs : list name) (key : name) (t : Z).
  Hypothesis W : op_wf o.
  Hypothesis Ns : no_super o.
  Hypothesis Es : op_shape o = Ok (repeat (RW [LO]) (length qs)).
  Hypothesis Sq : StronglySorted (fun a b => name_lt a b = Ok true) qs.
  Hypothesis Nq : NoDup qs.
  Notation c := [(key, Gate t qs o)].

  Lemma word_one (w : word) p n ch : In p qs -> length qs = n -> word_at (Act qs (repeat w n) ch : act S) p = w.
  Proof.
    intros I <-. clear Sq Nq Es. unfold word_at. cbn. induction qs as [|x r IH]; [destruct I|]. cbn. destruct (eqb_spec p x) as [->|Ne]; auto.
    apply IH. destruct I; [congruence|auto].
  Qed.
  Lemma one_gates : gates_ok c.
  Proof. intros k g [E|[]]. injection E as <- <-. cbn [g_qubits g_op]. split; auto. unfold op_len. rewrite Es. cbn. rewrite repeat_length. auto. Qed.
  Lemma one_wf : op_wf (OCirc c) /\ no_super (OCirc c).
  Proof.
    split.
    - constructor; [repeat constructor; intros []| |exact one_gates]. intros k g [E|[]]. injection E as <- <-. auto.
    - constructor. intros k g [E|[]]. injection E as <- <-. auto.
  Qed.
  Lemma one_register : register c qs.
  Proof.
    split; auto. intros q. split.
    - intros I. exists key, (Gate t qs o). split; [left; auto|auto].
    - intros (k & g & [E|[]] & I). injection E as <- <-. auto.
  Qed.
  Lemma one_act : gate_act (key, Gate t qs o) = Act qs (repeat [LO] (length qs)) (op_amp o).
  Proof. unfold gate_act, gact, spec_of. cbn [map_gate snd g_qubits g_op fst]. rewrite (shape_or_eq _ Es), map_repeat. auto. Qed.
  Lemma one_history p : history (map (@gate_act S) c) p = if mem p qs then [LO] else [].
  Proof.
    cbn [map]. rewrite history_one, one_act. destruct (mem_spec p qs) as [I|N]; [apply word_one; auto|]. apply word_at_off. auto.
  Qed.
  Lemma one_order : time_ordered c c.
  Proof. split; [apply Permutation_refl|repeat constructor]. Qed.

  Lemma one_shape : exists sh', op_shape (OCirc c) = Ok sh' /\ count role_in sh' = 0%nat /\ count role_out sh' = length qs /\
    forall x x', bits (length qs) x -> bits (length qs) x' -> op_dens (OCirc c) x [] x' [] = op_dens o x [] x' [].
  Proof.
    destruct one_order as [P St]. pose proof one_register as Rg. pose proof one_gates as G.
    assert (AQ : all_qubits c = Ok qs).
    { destruct (@register_exists S c) as [Q E].
      - intros x y Ux Uy Ne. apply (proj1 Rg) in Ux, Uy. clear -Sq Ux Uy Ne. induction Sq as [|a l Sl IH F]; [destruct Ux|].
        rewrite Forall_forall in F. destruct Ux as [->|Ux], Uy as [->|Uy]; try congruence; auto.
        + exists true. auto.
        + pose proof (F _ Ux) as X. exists false. apply (@name_lt_flip y x true); auto.
      - rewrite E. f_equal. apply (register_unique (c := c) (d := c)); auto; [tauto|apply all_qubits_register; auto]. }
    assert (Al : forall q, alternating (history (map (@gate_act S) c) q)) by (intros q; rewrite one_history; destruct (mem q qs); repeat constructor).
    destruct (@shape_exists S c c qs) as [sh' Es']; auto.
    { constructor; [constructor|constructor]. }
    exists sh'. split; auto. destruct (circ_known G Es' one_order Rg) as (NR & Lsh & Fit & _ & Esh & _ & Co & _).
    assert (E : sh' = repeat (RW [LO]) (length qs)).
    { rewrite Esh. clear -Nq Es. transitivity (map (fun _ : name => RW [LO]) qs).
      - apply map_ext_in. intros p Ip. rewrite one_history, (proj2 (mem_In p qs) Ip). auto.
      - clear. induction qs as [|x r IH]; auto. cbn. f_equal. auto. }
    assert (C : count role_out sh' = length qs) by (rewrite E; apply prep_out).
    split; [rewrite E; apply prep_in|]. split; auto. intros x x' B B'.
    rewrite (dens_order G Es' one_order Rg) by (rewrite C; auto). unfold channel. cbn [map].
    assert (Ex : xc (key, Gate t qs o) = CAct qs (repeat [LO] (length qs)) (op_dens o)).
    { unfold xc. cbn [snd g_qubits g_op]. rewrite (shape_or_eq _ Es), map_repeat. auto. }
    rewrite Ex. set (g := CAct qs (repeat [LO] (length qs)) (op_dens o)).
    assert (Fg : fits g) by (unfold fits; cbn; rewrite repeat_length; auto).
    assert (Wd : forall p, In p qs -> word_at (skel g) p = [LO]) by (intros p Ip; apply word_one; auto).
    assert (Eo : act_outs (skel g) = qs).
    { unfold act_outs. change (on (skel g)) with qs. rewrite (filter_ext_in _ (fun _ => true)) by (intros p Ip; rewrite Wd; auto). clear. induction qs; cbn; f_equal; auto. }
    assert (Ei : act_ins (skel g) = []).
    { unfold act_ins. change (on (skel g)) with qs. rewrite (filter_ext_in _ (fun _ => false)) by (intros p Ip; rewrite Wd; auto). clear. induction qs; cbn; auto. }
    rewrite amplitude_single.
    - cbn [dbl amp]. rewrite Eo, Ei. cbn [length]. destruct B as [L1 B], B' as [L2 B']. rewrite <- L1, firstn_app, firstn_all, Nat.sub_diag, skipn_app, skipn_all, Nat.sub_diag. cbn. rewrite app_nil_r. auto.
    - apply both_NoDup; auto.
    - apply both_NoDup; auto.
    - apply incl_refl.
    - change [dbl g] with (map (@dbl S) [g]). rewrite dbl_wires_out, dbl_outs by auto. f_equal. unfold wires_out, act_outs. apply filter_ext. intros p. cbn [map]. rewrite history_one. auto.
    - change [dbl g] with (map (@dbl S) [g]). rewrite dbl_wires_in, dbl_ins by auto. f_equal. unfold wires_in, act_ins. apply filter_ext. intros p. cbn [map]. rewrite history_one. auto.
    - rewrite dbl_outs, Eo by auto. unfold both. rewrite app_length, !map_length. apply bits_app; auto.
    - rewrite dbl_ins, Ei by auto. cbn. split; auto; constructor.
  Qed.
End One.
