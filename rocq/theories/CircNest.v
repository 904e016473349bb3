(** * Nested circuits *)
From Coq Require Import Sorting.Permutation Sorting.Sorted.
From Verif Require Import Base Scalar NetSpec Sums NetAlg ModelArray ModelTN TNInv TNOps TNSpec TNValue TNExact TNEdit
  TNEdit2 ModelVal ModelOps OpsSpec OpsProofs OpsValue ModelContract ContractExec NameOrder CircSpec CircSum CircOrder ModelCircuit CircSem CircShape
  CircWire CircStep CircNet CircCtrl CircWhen CircOp CircMain CircBuild CircUse DensSpec CircDens CircDensNet CircDensOp CircPure CircFlat FlatSpec.
Set Implicit Arguments.

Section Nest.
  Variable S : scalar.
  Notation op := (op S).
  Notation env := (env (A := name)).
  Local Open Scope K_scope.
  Add Ring K_ring_cn : (kring S).

  Lemma wire_to_map Q qs : NoDup Q -> length qs = length Q -> map (wire_to Q qs) Q = qs.
  Proof.
    intros N. revert qs. induction N as [|x Q Nx N IH]; intros [|y qs] L; try discriminate; auto. cbn [map]. f_equal.
    - unfold wire_to. simpl. rewrite eqb_refl. auto.
    - transitivity (map (wire_to Q qs) Q); [|apply IH; auto]. apply map_ext_in. intros q Iq. unfold wire_to. simpl.
      destruct (eqb_spec q x) as [->|_]; [contradiction|auto].
  Qed.
  Lemma wire_to_inj Q qs : NoDup Q -> NoDup qs -> length qs = length Q ->
    forall x y, In x Q -> In y Q -> wire_to Q qs x = wire_to Q qs y -> x = y.
  Proof.
    intros N Nq L x y Ix Iy E. unfold wire_to in E. apply (@index_of_inj _ _ x y Q Ix Iy).
    assert (Lx := index_of_lt _ _ Ix). assert (Ly := index_of_lt _ _ Iy). rewrite <- L in *.
    rewrite (nth_indep qs y x Ly) in E. apply (proj1 (NoDup_nth qs x) Nq); auto.
  Qed.

  Lemma alike_refl w : alike w w. Proof. repeat split. Qed.
  Lemma alike_trans u v w : alike u v -> alike v w -> alike u w.
  Proof. intros (A & B & C) (A' & B' & C'). repeat split; congruence. Qed.
  Lemma alike_app w1 v1 w2 v2 : alike w1 v1 -> alike w2 v2 -> alike (w1 ++ w2) (v1 ++ v2).
  Proof.
    intros (A & B & C) (A' & B' & C'). destruct w1 as [|a w1], v1 as [|b v1]; try discriminate; [repeat split; auto|].
    split; [auto|]. split; [rewrite !starts_in_app by congruence; auto|].
    destruct w2 as [|x w2], v2 as [|y v2]; try discriminate; [rewrite !app_nil_r; auto|]. rewrite !ends_out_app by congruence. auto.
  Qed.
  Lemma alike_truncate w : alternating w -> alike (truncate w) w.
  Proof. intros A. destruct (truncate_shape _ A) as (H1 & H2 & H3 & _). repeat split; auto. Qed.

  Definition one_act (p : op * list name) : act S := Act (snd p) (map role_word (shape_or (fst p))) (op_amp (fst p)).
  Definition moved (Q qs : list name) (p : name * gate op) : op * list name := (g_op (snd p), map (wire_to Q qs) (g_qubits (snd p))).
  Lemma moved_act Q qs p : one_act (moved Q qs p) = rename (wire_to Q qs) (gate_act p).
  Proof. destruct p as [k [t u a]]. reflexivity. Qed.
  Definition leaf_ok (qs : list name) (p : op * list name) : Prop :=
    NoDup (snd p) /\ incl (snd p) qs /\ op_len (fst p) = Ok (length (snd p)).

  Lemma history_rename f R' (gs : list (act S)) q : (forall x y, In x R' -> In y R' -> f x = f y -> x = y) ->
    Forall (fun g => incl (on g) R') gs -> In q R' -> history (map (rename f) gs) (f q) = history gs q.
  Proof.
    intros Inj F Iq. induction F as [|g gs Ig F IH]; auto. cbn [map]. rewrite !history_cons, IH. f_equal.
    apply (@word_at_rename S f R'); auto.
  Qed.
  Lemma history_off (gs : list (act S)) q : (forall g, In g gs -> ~ In q (on g)) -> history gs q = [].
  Proof.
    intros H. destruct (history gs q) eqn:E; auto. exfalso. destruct (@history_on S gs q) as (g & Ig & Iq); [congruence|]. apply (H g Ig Iq).
  Qed.

  (** what is known of a circuit that has a shape *)
  Lemma circ_known (c gates : circ op) sh R' : gates_ok c -> op_shape (OCirc c) = Ok sh -> time_ordered c gates -> register c R' ->
    NoDup R' /\ length sh = length R' /\ Forall (act_fits R') (map (@gate_act S) gates) /\
    (forall q, alternating (history (map (@gate_act S) gates) q)) /\
    sh = map (fun q => RW (truncate (history (map (@gate_act S) gates) q))) R' /\
    (forall p, In p gates -> In p c) /\
    count role_out sh = length (wires_out R' (map (@gate_act S) gates)) /\
    (forall o i, bits (count role_out sh) o -> op_amp (OCirc c) o i = amplitude R' (map (@gate_act S) gates) o i).
  Proof.
    intros G E [P St] Rg. destruct (any_order G E P St) as (Q & AQ & Al & Co & Ci & Esh & Am).
    destruct (all_qubits_spec _ AQ) as (NQ & _ & MQ).
    assert (Q = R') as -> by (apply (register_unique (c := c) (d := c)); auto; [tauto|apply all_qubits_register; auto]).
    assert (Ip : forall p, In p gates -> In p c) by (intros p; apply Permutation_in, Permutation_sym; auto).
    split; auto. split; [rewrite Esh, map_length; auto|]. split.
    { rewrite Forall_map. apply Forall_forall. intros [k g] I. apply Ip in I. destruct (G k g I) as [Nq L]. split; [exact Nq|].
      intros q Iq. apply MQ, qubits_In. exists (k, g). auto. }
    split; auto.
  Qed.

  (** the flat list: where its operations are, and how each wire is used *)
  Lemma flat_words o qs l : flat o qs l -> op_wf o -> forall sh, op_shape o = Ok sh -> NoDup qs -> length qs = length sh ->
    Forall (leaf_ok qs) l /\ forall q, alike (word_at (one_act (o, qs)) q) (history (map one_act l) q).
  Proof.
    intros F. refine (@flat_mut S
      (fun o qs l _ => op_wf o -> forall sh, op_shape o = Ok sh -> NoDup qs -> length qs = length sh ->
         Forall (leaf_ok qs) l /\ forall q, alike (word_at (one_act (o, qs)) q) (history (map one_act l) q))
      (fun Q qs gates ls _ => NoDup Q -> NoDup qs -> length qs = length Q ->
         (forall k g, In (k, g) gates -> op_wf (g_op g) /\ NoDup (g_qubits g) /\ op_len (g_op g) = Ok (length (g_qubits g)) /\ incl (g_qubits g) Q) ->
         Forall (leaf_ok qs) ls /\
         forall q, alike (history (map (rename (wire_to Q qs)) (map (@gate_act S) gates)) q) (history (map one_act ls) q)) _ _ _ _ o qs l F);
      clear o qs l F.
    - intros o qs No W sh Es Nq L. split.
      + constructor; [|constructor]. split; auto. split; [apply incl_refl|]. cbn [fst snd]. unfold op_len. rewrite Es. simpl. congruence.
      + intros q. cbn [map]. rewrite history_cons. cbn. rewrite app_nil_r. apply alike_refl.
    - intros c qs gates Q ls T Rg L _ IH W sh Es Nq Ls. inversion W as [| | | | | |? N Wg G|]; subst.
      destruct (circ_known G Es T Rg) as (NQ & Lsh & Fit & Al & Esh & Ip & _).
      destruct IH as [IH1 IH2]; auto.
      { intros k g I. destruct (G k g (Ip _ I)) as [Ng Lg]. split; [eapply Wg; eauto|]. split; auto. split; auto.
        rewrite Forall_map, Forall_forall in Fit. destruct (Fit _ I) as [_ Inc]. exact Inc. }
      split; auto. intros q. eapply alike_trans; [|apply IH2].
      assert (FI : Forall (fun g => incl (on g) Q) (map (@gate_act S) gates)) by (eapply Forall_impl; [|exact Fit]; intros g [_ Ig]; auto).
      pose proof (wire_to_inj NQ Nq L) as Inj.
      destruct (mem q qs) eqn:M; [apply mem_In in M|apply mem_false in M].
      + rewrite <- (@wire_to_map Q qs NQ L) in M. apply in_map_iff in M as (q0 & <- & Iq0). rewrite (@history_rename (wire_to Q qs) Q _ q0 Inj FI Iq0).
        unfold word_at, one_act. cbn [fst snd on words]. rewrite (shape_or_eq _ Es), Esh, map_map. cbn [role_word].
        match goal with |- context [combine qs ?x] => replace (combine qs x) with (combine (map (wire_to Q qs) Q) x) by (rewrite wire_to_map; auto) end.
        rewrite (@get_rename (wire_to Q qs) Q); auto; [|apply incl_refl].
        rewrite get_self by auto. apply alike_truncate, Al.
      + replace (word_at (one_act (OCirc c, qs)) q) with (@nil letter).
        2:{ destruct (word_at (one_act (OCirc c, qs)) q) eqn:E; auto. exfalso. apply M. apply (@word_at_on S (one_act (OCirc c, qs))). congruence. }
        rewrite history_off; [apply alike_refl|]. intros g Ig Iq. apply in_map_iff in Ig as (g0 & <- & Ig). apply M.
        rewrite Forall_forall in FI. apply (incl_map (wire_to Q qs) (FI _ Ig)) in Iq. rewrite wire_to_map in Iq; auto.
    - intros Q qs NQ Nq L _. split; [constructor|]. intros q. apply alike_refl.
    - intros Q qs k g gates l ls _ IH1 _ IH2 NQ Nq L H.
      destruct (H k g) as (Wg & Ng & Lg & Ig); [simpl; auto|]. apply op_len_shape in Lg as [Eg Lg].
      pose proof (wire_to_inj NQ Nq L) as Inj.
      assert (Nm : NoDup (map (wire_to Q qs) (g_qubits g))).
      { apply (@NoDup_rename (wire_to Q qs) (g_qubits g)); auto. }
      destruct (IH1 Wg _ Eg Nm) as [A1 A2]; [rewrite map_length; auto|].
      destruct IH2 as [B1 B2]; auto; [intros k' g' I; apply (H k' g'); simpl; auto|].
      split.
      + apply Forall_app. split; auto. eapply Forall_impl; [|exact A1]. intros p (X & Y & Z). split; auto. split; auto.
        intros q Iq. rewrite <- (@wire_to_map Q qs NQ L). apply (incl_map (wire_to Q qs) Ig). auto.
      + intros q. cbn [map]. rewrite map_app, history_cons, history_app. apply alike_app; [|apply B2].
        rewrite <- moved_act. apply A2.
  Qed.
End Nest.
