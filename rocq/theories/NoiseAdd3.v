(** * add_noise: the whole circuit *)
From Coq Require Import Sorting.Permutation Sorting.Sorted.
From Verif Require Import Base Scalar NetSpec Sums NetAlg ModelArray ModelTN TNInv TNOps TNSpec TNValue TNExact TNEdit
  TNEdit2 ModelVal ModelOps OpsSpec OpsProofs OpsValue ModelContract ContractExec NameOrder CircSpec CircSum CircOrder ModelCircuit CircSem CircShape
  CircWire CircStep CircNet CircCtrl CircWhen CircOp CircMain CircBuild CircUse DensSpec CircDens CircDensNet CircDensOp CircPure ChanCirc CircFlat FlatSpec CircNest CircNest2 CircNest3
  ModelNoise NoisySpec NoiseAdd NoiseAdd2.
Set Implicit Arguments.

Section Add.
  Variable S : scalar.
  Notation op := (op S).
  Context (nz : op).
  Hypothesis Wz : op_wf nz.
  Hypothesis Ez : op_shape nz = Ok [RW [LI; LO]].

  Definition noisy (o : op) : op := match noisy_op nz o with Ok x => x | Err _ => o end.
  Definition hush (p : name * gate op) : name * gate op := (fst p, Gate (g_time (snd p)) (g_qubits (snd p)) (noisy (g_op (snd p)))).

  Lemma noisy_facts (o : op) sh : good o sh -> exists c1, noisy_op nz o = Ok (OCirc c1) /\ noisy o = OCirc c1 /\ op_wf (OCirc c1) /\
    register c1 (range_names (length sh)) /\ time_ordered c1 c1 /\
    op_shape (OCirc c1) = Ok (map (fun q => RW (truncate (history (map (@gate_act S) (noisy_list nz o (length sh))) q))) (range_names (length sh))) /\
    map (fun p => (g_op (snd p), g_qubits (snd p))) c1 = map (fun p => (g_op (snd p), g_qubits (snd p))) (noisy_list nz o (length sh)).
  Proof.
    intros G. destruct (noisy_op_eq Wz Ez G) as [t E]. destruct (noisy_list_ok Wz Ez G) as (J1 & J2 & J3 & J4 & J5).
    destruct (@stacked_circ S t _ _ J1 J2 J3 J4) as (W & R0 & Es). eexists. split; [exact E|]. split; [unfold noisy; rewrite E; auto|].
    split; auto. split; auto. split; [apply stacked_order|]. split; auto. apply stacked_parts.
  Qed.

  Lemma hush_word (p : name * gate op) sh q : good (g_op (snd p)) sh -> NoDup (g_qubits (snd p)) -> length (g_qubits (snd p)) = length sh ->
    alternating (word_at (gate_act (hush p)) q) /\ alike (word_at (gate_act p) q) (word_at (gate_act (hush p)) q).
  Proof.
    intros G N L. destruct p as [k [t qs o]]. cbn [snd g_op g_qubits] in *.
    destruct (noisy_facts G) as (c1 & _ & En & W1 & Rg & T1 & Es1 & _). destruct (noisy_list_ok Wz Ez G) as (_ & _ & _ & J4 & J5).
    pose proof G as (W & Es & Nu & C).
    unfold hush, gate_act, gact, spec_of. cbn [map_gate snd g_qubits g_op fst]. rewrite En, (shape_or_eq _ Es1), (shape_or_eq _ Es), map_map. cbn [role_word].
    set (H := fun q => truncate (history (map (@gate_act S) (noisy_list nz o (length sh))) q)).
    set (n := length sh) in *. pose proof (range_NoDup n) as Nr.
    assert (Lr : length qs = length (range_names n)) by (rewrite range_length; auto).
    pose proof (wire_to_inj Nr N Lr) as Inj.
    destruct (mem q qs) eqn:M; [apply mem_In in M|apply mem_false in M].
    - rewrite <- (@wire_to_map (range_names n) qs Nr Lr) in M. apply in_map_iff in M as (q0 & <- & Iq0).
      assert (Ex : forall ws (a : ampl S), word_at (Act qs ws a) (wire_to (range_names n) qs q0) = word_at (Act (range_names n) ws a) q0).
      { intros ws a. rewrite <- (@word_at_rename S (wire_to (range_names n) qs) (range_names n) Inj (Act (range_names n) ws a) q0); auto; [|apply incl_refl].
        unfold rename. cbn [on words amp]. rewrite wire_to_map by auto. auto. }
      rewrite !Ex. assert (E1 : forall a : ampl S, word_at (Act (range_names n) (map H (range_names n)) a) q0 = H q0).
      { intros a. unfold word_at. cbn [on words]. rewrite get_self by auto. auto. }
      rewrite E1. unfold H. destruct (truncate_shape _ (J4 q0)) as (_ & _ & _ & At & _). split; auto.
      assert (Ew : word_at (whole o) q0 = word_at (Act (range_names n) (map role_word sh) (op_amp o)) q0).
      { unfold whole, whole_gate, gate_act, gact, spec_of. cbn [map_gate snd g_qubits g_op fst]. rewrite (shape_or_eq _ Es). reflexivity. }
      specialize (J5 q0). rewrite Ew in J5. eapply alike_trans; [exact J5|]. destruct (alike_truncate _ (J4 q0)) as (B1 & B2 & B3). repeat split; auto.
    - assert (E : forall ws (a : ampl S), word_at (Act qs ws a) q = []).
      { intros ws a. destruct (word_at (Act qs ws a) q) eqn:E; auto. exfalso. apply M. apply (@word_at_on S (Act qs ws a)). congruence. }
      rewrite !E. split; [exact I|apply alike_refl].
  Qed.

  Lemma alike_history (gs hs : list (act S)) q : Forall2 (fun g h => alternating (word_at h q) /\ alike (word_at g q) (word_at h q)) gs hs ->
    alternating (history gs q) -> alternating (history hs q) /\ alike (history gs q) (history hs q).
  Proof.
    intros F. induction F as [|g h gs hs [A B] F IH]; intros Al; [split; [exact I|apply alike_refl]|]. rewrite !history_cons in *.
    destruct IH as [A' B']; [eapply alternating_app_r; eauto|]. split; [|apply alike_app; auto]. eapply alike_join; eauto.
  Qed.

  (** ** the circuit *)
  Section Circuit.
    Context (c : circ op) (sh : list role).
    Hypothesis W : op_wf (OCirc c).
    Hypothesis Es : op_shape (OCirc c) = Ok sh.
    Hypothesis Nu : forall k g, In (k, g) c -> numbered (g_op g).

    Lemma gate_good k g : In (k, g) c -> good (g_op g) (shape_or (g_op g)) /\ NoDup (g_qubits g) /\ length (g_qubits g) = length (shape_or (g_op g)).
    Proof.
      intros Ig. inversion W as [| | | | | |? N Wg G|]; subst. assert (G' : gates_ok c) by exact G.
      destruct (G k g Ig) as [Nq L]. apply op_len_shape in L as [Eg L]. split; [|auto]. split; [eauto|]. split; auto. split; [eapply Nu; eauto|].
      destruct (circ_facts G' Es) as (Q & AQ & Ap & Al & _).
      apply Forall_forall. intros r Ir.
      assert (Ir' : In (role_word r) (map (word_at (gate_act (k, g))) (g_qubits g))).
      { destruct g as [t qs o]. unfold gate_act, gact, spec_of. cbn [map_gate snd g_qubits g_op fst] in *. rewrite words_self; auto; [|rewrite map_length; auto]. apply in_map; auto. }
      apply in_map_iff in Ir' as (q & <- & Iq). specialize (Al q).
      assert (P : Permutation c (in_order c)) by apply in_order_perm. rewrite (any_history q Ap P (@in_order_sorted _ c)) in Al.
      apply (Permutation_in _ P) in Ig. apply in_split in Ig as (l1 & l2 & E). rewrite E in Al. rewrite map_app in Al. cbn [map] in Al.
      rewrite history_app, history_cons in Al. apply alternating_app_r in Al. apply alternating_app_l in Al. auto.
    Qed.

    Lemma hush_len k g : In (k, g) c -> op_len (noisy (g_op g)) = Ok (length (g_qubits g)) /\ op_wf (noisy (g_op g)) /\ noisy_op nz (g_op g) = Ok (noisy (g_op g)).
    Proof.
      intros Ig. destruct (@gate_good _ _ Ig) as (G & N & L). destruct (noisy_facts G) as (c1 & E & En & W1 & _ & _ & Es1 & _). rewrite En. split; [|auto].
      unfold op_len. rewrite Es1. cbn [bind]. rewrite map_length, range_length. congruence.
    Qed.

    Lemma add_noise_eq : add_noise c nz = Ok (map hush c).
    Proof.
      inversion W as [| | | | | |? N Wg G|]; subst. unfold add_noise.
      assert (H : forall l acc, incl l c -> NoDup (keys acc ++ keys l) -> noisy_gates nz l acc = Ok (acc ++ map hush l)).
      { induction l as [|[k g] l IH]; intros acc I Nk; cbn [noisy_gates map]; [rewrite app_nil_r; auto|].
        assert (Ig : In (k, g) c) by (apply I; simpl; auto). destruct (@hush_len _ _ Ig) as (L & _ & ->). cbn [bind].
        destruct (@gate_good _ _ Ig) as (_ & Nq & _). cbn [keys map fst] in Nk.
        assert (E : c_append (noisy (g_op g)) (g_qubits g) (Some (g_time g)) (Some k) acc = Ok (acc ++ [hush (k, g)])).
        { apply c_append_ok. split; auto. split; auto. unfold slot, label. rewrite set_fresh; auto.
          intros X. apply NoDup_remove_2 in Nk. apply Nk, in_app_iff. auto. }
        rewrite E. cbn [bind]. rewrite IH; [rewrite <- app_assoc; auto|intros p Ip; apply I; simpl; auto|].
        unfold keys in *. rewrite map_app, <- app_assoc. exact Nk. }
      rewrite H; auto. apply incl_refl.
    Qed.

    Lemma hush_keys : keys (map hush c) = keys c.
    Proof. unfold keys. rewrite map_map. auto. Qed.
    Lemma hush_wf : op_wf (OCirc (map hush c)) /\ gates_ok (map hush c).
    Proof.
      inversion W as [| | | | | |? N Wg G|]; subst.
      assert (Gd : gates_ok (map hush c)).
      { intros k g I. apply in_map_iff in I as ([k' g'] & E & I). inversion E; subst. cbn [g_qubits g_op snd]. split; [apply (G _ _ I)|apply (@hush_len _ _ I)]. }
      split; auto. constructor; [rewrite hush_keys; auto| |exact Gd].
      intros k g I. apply in_map_iff in I as ([k' g'] & E & I). inversion E; subst. apply (@hush_len _ _ I).
    Qed.
    Lemma hush_used q : used (map hush c) q <-> used c q.
    Proof.
      split; intros (k & g & I & Iq).
      - apply in_map_iff in I as ([k' g'] & E & I). inversion E; subst. exists k, g'. auto.
      - exists k, (snd (hush (k, g))). split; auto. apply in_map_iff. exists (k, g). auto.
    Qed.
    Lemma hush_register Q : register c Q -> register (map hush c) Q.
    Proof. intros [A B]. split; auto. intros q. rewrite hush_used. auto. Qed.
    Lemma hush_order gates : time_ordered c gates -> time_ordered (map hush c) (map hush gates).
    Proof.
      intros [P St]. split; [apply Permutation_map; auto|]. induction St as [|p l S1 IH F] in P |- *; cbn [map]; constructor.
      - clear -S1. induction S1 as [|p l S1 IH F]; cbn [map]; constructor; auto. rewrite Forall_map. exact F.
      - rewrite Forall_map. exact F.
    Qed.
    Lemma hush_alike gates q : incl gates c -> Forall2 (fun g h => alternating (word_at h q) /\ alike (word_at g q) (word_at h q))
      (map (@gate_act S) gates) (map (@gate_act S) (map hush gates)).
    Proof.
      intros I. rewrite map_map. induction gates as [|[k g] gates IH]; cbn [map]; constructor; [|apply IH; intros p Ip; apply I; simpl; auto].
      destruct (@gate_good k g) as (G & N & L); [apply I; simpl; auto|]. apply (@hush_word (k, g) (shape_or (g_op g))); auto.
    Qed.
    Lemma hush_shape gates Q : time_ordered c gates -> register c Q -> exists sh', op_shape (OCirc (map hush c)) = Ok sh' /\
      sh' = map (fun q => RW (truncate (history (map (@gate_act S) (map hush gates)) q))) Q /\
      (forall q, alternating (history (map (@gate_act S) (map hush gates)) q)) /\
      (forall q, alike (history (map (@gate_act S) gates) q) (history (map (@gate_act S) (map hush gates)) q)).
    Proof.
      intros T Rg. inversion W as [| | | | | |? N Wg G|]; subst. assert (G' : gates_ok c) by exact G. destruct hush_wf as [Wd Gd].
      destruct (circ_known G' Es T Rg) as (NR & Lsh & Fit & Al & Esh & Ip & _). destruct (circ_facts G' Es) as (Q' & AQ & Ap & _).
      assert (Q' = Q) as -> by (apply (register_unique (c := c) (d := c)); auto; [tauto|apply all_qubits_register; auto]).
      assert (H : forall q, alternating (history (map (@gate_act S) (map hush gates)) q) /\ alike (history (map (@gate_act S) gates) q) (history (map (@gate_act S) (map hush gates)) q)).
      { intros q. apply alike_history; auto. apply hush_alike. exact Ip. }
      destruct (hush_order T) as [Pd Sd].
      destruct (@shape_exists S (map hush c) (map hush gates) Q) as [sh' E]; auto.
      - clear -Ap. unfold apart_ok, tacts, map_circ in *. rewrite !map_map in *. induction c as [|[k [t q a]] l IH]; simpl in *; [constructor|].
        inversion Ap as [|? ? F1 F2]; subst. constructor; auto. rewrite Forall_map in *. eapply Forall_impl; [|exact F1]. intros [k' [t' q' a']]. simpl. auto.
      - intros q. apply H.
      - rewrite <- AQ. unfold all_qubits. f_equal. f_equal. clear. unfold qubits_of. induction c as [|[k [t q a]] l IH]; simpl; auto. f_equal. auto.
      - exists sh'. split; auto. destruct (circ_known Gd E (hush_order T) (hush_register Rg)) as (_ & _ & _ & _ & Esh' & _). split; auto. split; intros q; apply H.
    Qed.
  End Circuit.
End Add.
