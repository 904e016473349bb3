(** * A circuit with more operations appended *)
From Coq Require Import Sorting.Permutation Sorting.Sorted.
From Verif Require Import Base Scalar NetSpec Sums NetAlg ModelArray ModelTN TNSpec ModelVal ModelOps OpsSpec ModelContract NameOrder CircSpec CircSum CircOrder ModelCircuit CircSem CircShape
  CircCtrl CircMain CircBuild CircUse DensSpec CircDens CircDensNet CircDensOp CircPure ChanCirc ChanTrace CircFlat FlatSpec CircNest CircNest2 CircNest3 ModelNoise NoisySpec NoiseAdd NoiseAdd4 MatSpec.
Set Implicit Arguments.

Section Extend.
  Variable S : scalar.
  Notation op := (op S).
  Context (c : circ op) (sh : list role) (N : nat).
  Hypothesis W : op_wf (OCirc c).
  Hypothesis Ns : no_super (OCirc c).
  Hypothesis Es : op_shape (OCirc c) = Ok sh.
  Hypothesis Lf : late_names_free c.
  Hypothesis Rg : register c (range_names N).
  Notation Q := (range_names N).
  Notation gs := (map (@gate_act S) (in_order c)).

  Definition extended (l : circ op) : circ op := c ++ stacked_after (1 + max_time c) l.
  Definition appendable (l : circ op) : Prop :=
    (forall k g, In (k, g) l -> op_wf (g_op g) /\ no_super (g_op g) /\ NoDup (g_qubits g) /\ op_len (g_op g) = Ok (length (g_qubits g)) /\ incl (g_qubits g) Q) /\
    forall q, alternating (history (gs ++ map (@gate_act S) l) q).

  Lemma extend_gates l : appendable l -> gates_ok l.
  Proof. intros [H _] k g I. destruct (H k g I) as (_ & _ & A & B & _). auto. Qed.

  Theorem extend_facts l : appendable l ->
    c_extend l c = Ok (extended l) /\ op_wf (OCirc (extended l)) /\ no_super (OCirc (extended l)) /\ register (extended l) Q /\
    exists sh', op_shape (OCirc (extended l)) = Ok sh' /\ length sh' = N /\
      sh' = map (fun q => RW (truncate (history (gs ++ map (@gate_act S) l) q))) Q /\
      map role_in sh' = map (fun q => starts_in (history (gs ++ map (@gate_act S) l) q)) Q /\
      map role_out sh' = map (fun q => ends_out (history (gs ++ map (@gate_act S) l) q)) Q /\
      forall x y x' y', bits (count role_out sh') x -> bits (count role_out sh') x' ->
        op_dens (OCirc (extended l)) x y x' y' = channel Q (map (@xc S) (in_order c) ++ map (@xc S) l) x y x' y'.
  Proof.
    intros A. pose proof (extend_gates A) as Gl. destruct A as [H Al]. inversion W as [| | | | | |? Nk Wg G|]; subst. assert (G' : gates_ok c) by exact G.
    inversion Ns as [| | | | | |? NsI]; subst. split; [apply extend_ok; auto|].
    assert (Gx : gates_ok (extended l)) by (apply gates_app; auto; apply gates_stacked; auto).
    assert (Wx : op_wf (OCirc (extended l))).
    { constructor; [apply keys_join; auto| |exact Gx]. intros k g I. apply in_app_iff in I as [I|I]; [eapply Wg; eauto|].
      apply stacked_In in I as (k0 & g0 & I & _ & -> & _). apply (H _ _ I). }
    split; auto. split.
    { constructor. intros k g I. apply in_app_iff in I as [I|I]; [eapply NsI; eauto|]. apply stacked_In in I as (k0 & g0 & I & _ & -> & _). apply (H _ _ I). }
    destruct (@range_register S (extended l) N) as [Rx AQ].
    { intros q. rewrite (proj1 Rg q). split.
      - intros (k & g & I & Iq). unfold extended in I. apply in_app_iff in I as [I|I]; [exists k, g; auto|].
        apply stacked_In in I as (k0 & g0 & I & E & _). rewrite E in Iq. apply (proj1 Rg). apply (H _ _ I). auto.
      - intros (k & g & I & Iq). exists k, g. split; auto. apply in_app_iff. auto. }
    split; auto.
    assert (T : time_ordered (extended l) (in_order c ++ stacked_after (1 + max_time c) l)) by (split; [apply join_perm|apply join_sorted]).
    destruct (circ_facts G' Es) as (Q' & _ & Ap & _).
    destruct (@shape_exists S (extended l) (in_order c ++ stacked_after (1 + max_time c) l) Q) as [sh' Es']; auto.
    - apply join_apart; auto.
    - apply join_perm.
    - apply join_sorted.
    - intros q. rewrite join_acts. auto.
    - exists sh'. split; auto. destruct (circ_known Gx Es' T Rx) as (NR & Lsh & Fit & Al' & Esh & Ip & Co & _). rewrite join_acts in Esh, Al'.
      rewrite range_length in Lsh. split; auto. split; auto. split; [|split].
      + rewrite Esh, map_map. apply map_ext. intros q. cbn [role_in]. apply truncate_shape; auto.
      + rewrite Esh, map_map. apply map_ext. intros q. cbn [role_out]. apply truncate_shape; auto.
      + intros x y x' y' Bx Bx'. rewrite (dens_order Gx Es' T Rx) by auto. f_equal. rewrite map_app. f_equal.
        clear. generalize (1 + max_time c)%Z as t. induction l as [|[k g] l IH]; intros t; auto. cbn [stacked_after map]. f_equal; auto.
  Qed.
End Extend.
