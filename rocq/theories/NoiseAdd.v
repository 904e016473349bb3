(** * add_noise: one operation *)
From Coq Require Import Sorting.Permutation Sorting.Sorted.
From Verif Require Import Base Scalar NetSpec Sums NetAlg ModelArray ModelTN TNInv TNOps TNSpec TNValue TNExact TNEdit
  TNEdit2 ModelVal ModelOps OpsSpec OpsProofs OpsValue ModelContract ContractExec NameOrder CircSpec CircSum CircOrder ModelCircuit CircSem CircShape
  CircWire CircStep CircNet CircCtrl CircWhen CircOp CircMain CircBuild CircUse DensSpec CircDens CircDensNet CircDensOp CircPure ChanCirc CircFlat FlatSpec CircNest CircNest2 CircNest3
  ModelNoise NoisySpec.
Set Implicit Arguments.

Lemma alternating_join u v : alternating (u ++ v) <-> alternating u /\ alternating v /\ (u = [] \/ v = [] \/ ends_out u = starts_in v).
Proof.
  induction u as [|a u IH]; [simpl; intuition|]. destruct u as [|b u].
  - destruct v as [|b v]; [simpl; tauto|]. change ([a] ++ b :: v) with (a :: b :: v).
    change (alternating (a :: b :: v)) with (a <> b /\ alternating (b :: v)). split.
    + intros [N A]. split; [exact I|]. split; auto. right. right. destruct a, b; try (destruct N; reflexivity); reflexivity.
    + intros (_ & A & [E|[E|E]]); try discriminate. split; auto. destruct a, b; discriminate.
  - change ((a :: b :: u) ++ v) with (a :: b :: (u ++ v)). change (alternating (a :: b :: (u ++ v))) with (a <> b /\ alternating ((b :: u) ++ v)).
    change (alternating (a :: b :: u)) with (a <> b /\ alternating (b :: u)). rewrite IH.
    change (ends_out (a :: b :: u)) with (ends_out (b :: u)). split.
    + intros (N & A & B & [E|E]); [discriminate|]. tauto.
    + intros ((N & A) & B & [E|E]); [discriminate|]. tauto.
Qed.
Lemma alike_nil u v : alike u v -> (u = [] <-> v = []).
Proof. intros (E & _). destruct u, v; simpl in E; try discriminate; split; auto; discriminate. Qed.
Lemma alike_join u u' v v' : alike u u' -> alike v v' -> alternating u' -> alternating v' -> alternating (u ++ v) -> alternating (u' ++ v').
Proof.
  intros A B Au Av H. apply alternating_join in H as (_ & _ & H). apply alternating_join. split; auto. split; auto.
  destruct H as [H|[H|H]]; [left; apply (alike_nil A); auto|right; left; apply (alike_nil B); auto|right; right].
  destruct A as (_ & _ & A), B as (_ & B & _). congruence.
Qed.

Section Add.
  Variable S : scalar.
  Notation op := (op S).

  Lemma positions_map p sh sh' : map p sh = map p sh' -> positions p sh = positions p sh'.
  Proof.
    unfold positions. intros E. assert (L : length sh = length sh') by (apply (f_equal (@length _)) in E; rewrite !map_length in E; auto). rewrite <- L.
    generalize 0%nat as k. clear L. revert sh' E. induction sh as [|r sh IH]; intros [|r' sh'] E k; try discriminate; auto.
    cbn [map] in E. injection E as E1 E2. cbn [length seq combine filter snd]. rewrite E1. destruct (p r'); cbn [map fst]; [f_equal|]; auto.
  Qed.
  Lemma positions_outputs (o : op) sh : op_shape o = Ok sh ->
    map (fun a => NI (Z.of_nat a)) (positions role_out sh) = outputs o (range_names (length sh)).
  Proof.
    intros Es. unfold outputs, positions, range_names. rewrite (shape_or_eq _ Es). generalize 0%nat as k. clear Es. induction sh as [|r sh IH]; intros k; auto.
    cbn [length seq map combine filter snd]. destruct (role_out r); cbn [map fst]; [f_equal|]; auto.
  Qed.
  Lemma outputs_acts (o : op) qs (a : ampl S) : NoDup qs -> length qs = length (shape_or o) -> outputs o qs = act_outs (Act qs (map role_word (shape_or o)) a).
  Proof. intros N L. unfold outputs. symmetry. apply act_outs_role; auto. Qed.

  Lemma extend_app (l m : circ op) : forall c, c_extend (l ++ m) c = do c <- c_extend l c; c_extend m c.
  Proof.
    induction l as [|[k g] l IH]; intros c; auto. cbn [app c_extend]. destruct (c_append (g_op g) (g_qubits g) None None c); cbn [bind]; auto.
  Qed.
  Definition noise_gate (nz : op) (q : name) : name * gate op := (NN, Gate 0%Z [q] nz).
  Lemma noise_each_extend nz idx : forall c, noise_each nz idx c = c_extend (map (fun a => noise_gate nz (NI (Z.of_nat a))) idx) c.
  Proof.
    induction idx as [|a r IH]; intros c; auto. cbn [noise_each map noise_gate c_extend g_op g_qubits].
    destruct (c_append nz [NI (Z.of_nat a)] None None c); cbn [bind]; auto.
  Qed.
  (** the gates that an operation becomes in [Circuit() | o] *)
  Definition inner (o : op) : circ op := match o with OCirc d => in_order d | _ => [whole_gate o] end.
  Lemma or_inner (o : op) sh : op_shape o = Ok sh -> op_or (OCirc []) o = do r <- c_extend (inner o) []; Ok (OCirc r).
  Proof.
    intros Es. assert (L := len_bind o (fun n => do r <- c_append o (range_names n) None None []; Ok (OCirc r)) Es).
    destruct o; cbn [op_or c_copy bind inner] in *; auto; rewrite L, append_as_extend; auto.
  Qed.
  Lemma stacked_order t (l : circ op) : time_ordered (stacked_after t l) (stacked_after t l).
  Proof.
    split; auto. pose proof (stacked_sorted t l) as H. induction H as [|p r S1 IH F]; constructor; auto.
    eapply Forall_impl; [|exact F]. unfold earlier. intros a La. apply Z.lt_le_incl. exact La.
  Qed.
  Lemma stacked_parts t (l : circ op) : map (fun p => (g_op (snd p), g_qubits (snd p))) (stacked_after t l) = map (fun p => (g_op (snd p), g_qubits (snd p))) l.
  Proof. revert t. induction l as [|[k g] l IH]; intros t; auto. cbn. f_equal. apply IH. Qed.
  Lemma stacked_gate_acts t (l : circ op) : map (@gate_act S) (stacked_after t l) = map (@gate_act S) l.
  Proof. rewrite !gate_acts. apply stacked_acts. Qed.
  Lemma stacked_apart t (l : circ op) : apart_ok (map_circ (@spec_of S) (stacked_after t l)).
  Proof.
    unfold apart_ok, tacts, map_circ. pose proof (stacked_sorted t l) as H. induction H as [|p r S1 IH F]; simpl; constructor; auto.
    rewrite !Forall_map. eapply Forall_impl; [|exact F]. intros a La E. cbn in E, La. rewrite E in La. destruct (Z.lt_irrefl _ La).
  Qed.
  Lemma stacked_keys t (l : circ op) : NoDup (keys (stacked_after t l)).
  Proof.
    revert t. induction l as [|[k g] l IH]; intros t; [constructor|]. cbn [stacked_after keys map fst]. constructor; [|apply IH].
    intros I. apply in_map_iff in I as ([k' g'] & E & I). cbn [fst] in E. apply stacked_In in I as (_ & _ & _ & _ & _ & Le & Ek). rewrite Ek in E.
    inversion E. lia.
  Qed.
  Lemma stacked_used t (l : circ op) q : used (stacked_after t l) q <-> used l q.
  Proof.
    split.
    - intros (k & g & I & Iq). apply stacked_In in I as (k0 & g0 & I & E & _). exists k0, g0. rewrite <- E. auto.
    - intros (k & g & I & Iq). revert t. induction l as [|[k' g'] l IH]; intros t; [destruct I|]. destruct I as [I|I].
      + injection I as -> ->. eexists _, _. split; [left; reflexivity|auto].
      + destruct (IH I (t + 1)%Z) as (k2 & g2 & I2 & Iq2). exists k2, g2. split; [right; auto|auto].
  Qed.
  Lemma stacked_wf t (l : circ op) : (forall k g, In (k, g) l -> op_wf (g_op g)) -> gates_ok l -> op_wf (OCirc (stacked_after t l)).
  Proof.
    intros W G. constructor; [apply stacked_keys| |apply gates_stacked; auto].
    intros k g I. apply stacked_In in I as (k0 & g0 & I & _ & E & _). rewrite E. eauto.
  Qed.
  Lemma range_register (c : circ op) n : (forall q, used c q <-> In q (range_names n)) -> register c (range_names n) /\ all_qubits c = Ok (range_names n).
  Proof.
    intros H. assert (R0 : register c (range_names n)) by (split; [intros q; symmetry; auto|apply range_sorted]). split; auto.
    destruct (@register_exists S c) as [Q E].
    - intros x y Ux Uy _. apply H in Ux, Uy. unfold range_names in Ux, Uy. apply in_map_iff in Ux as (a & <- & _), Uy as (b & <- & _). cbn. eauto.
    - rewrite E. f_equal. apply (register_unique (c := c) (d := c)); auto; [tauto|apply all_qubits_register; auto].
  Qed.

  (** a list of gates on the qubits 0, 1, ... becomes a circuit *)
  Lemma stacked_circ t (l : circ op) n : (forall k g, In (k, g) l -> op_wf (g_op g)) -> gates_ok l ->
    (forall q, used l q <-> In q (range_names n)) -> (forall q, alternating (history (map (@gate_act S) l) q)) ->
    op_wf (OCirc (stacked_after t l)) /\ register (stacked_after t l) (range_names n) /\
    op_shape (OCirc (stacked_after t l)) = Ok (map (fun q => RW (truncate (history (map (@gate_act S) l) q))) (range_names n)).
  Proof.
    intros W G U Al. set (c := stacked_after t l). assert (Wc : op_wf (OCirc c)) by (apply stacked_wf; auto).
    destruct (@range_register c n) as [Rg AQ]; [intros q; unfold c; rewrite stacked_used; auto|]. split; auto. split; auto.
    assert (Gc : gates_ok c) by (apply gates_stacked; auto).
    destruct (stacked_order t l) as [P So]. destruct (@shape_exists S c c (range_names n)) as [sh Es]; auto.
    - apply stacked_apart.
    - intros q. unfold c. rewrite stacked_gate_acts. auto.
    - destruct (circ_known Gc Es (stacked_order t l) Rg) as (_ & _ & _ & _ & Esh & _). rewrite Es. f_equal. rewrite Esh. unfold c. rewrite stacked_gate_acts. auto.
  Qed.

  Lemma words_self (qs : list name) : forall ws (a : ampl S), NoDup qs -> length qs = length ws -> map (word_at (Act qs ws a)) qs = ws.
  Proof.
    intros ws a N. revert ws. induction N as [|q qs Nq N IH]; intros [|w ws] L; try discriminate; auto. cbn [map]. f_equal.
    - unfold word_at. cbn. rewrite eqb_refl. auto.
    - transitivity (map (word_at (Act qs ws a)) qs); [|apply IH; auto]. apply map_ext_in. intros x Ix. unfold word_at. cbn.
      destruct (eqb_spec x q) as [->|_]; [contradiction|auto].
  Qed.

  Definition clean (sh : list role) : Prop := Forall (fun r => alternating (role_word r)) sh.
  Lemma word_clean sh qs (a : ampl S) q : clean sh -> alternating (word_at (Act qs (map role_word sh) a) q).
  Proof.
    intros C. unfold word_at. cbn [on words]. destruct (get q (combine qs (map role_word sh))) as [w|] eqn:E; [|exact I].
    apply get_In in E. apply in_combine_r in E. apply in_map_iff in E as (r & <- & Ir). unfold clean in C. rewrite Forall_forall in C. auto.
  Qed.

  Lemma inner_ok (o : op) sh : op_wf o -> op_shape o = Ok sh -> numbered o -> clean sh ->
    (forall k g, In (k, g) (inner o) -> op_wf (g_op g)) /\ gates_ok (inner o) /\
    (forall q, used (inner o) q <-> In q (range_names (length sh))) /\
    (forall q, alternating (history (map (@gate_act S) (inner o)) q)) /\
    (forall q, alike (word_at (whole o) q) (history (map (@gate_act S) (inner o)) q)).
  Proof.
    intros W Es Nu C.
    assert (Non : (forall c, o <> OCirc c) ->
      (forall k g, In (k, g) [whole_gate o] -> op_wf (g_op g)) /\ gates_ok [whole_gate o] /\
      (forall q, used [whole_gate o] q <-> In q (range_names (length sh))) /\
      (forall q, alternating (history (map (@gate_act S) [whole_gate o]) q)) /\
      (forall q, alike (word_at (whole o) q) (history (map (@gate_act S) [whole_gate o]) q))).
    { intros _. split; [intros k g [E|[]]; inversion E; subst; exact W|]. split; [eapply whole_ok; eauto|]. split.
      - intros q. rewrite <- (shape_or_eq _ Es). split.
        + intros (k & g & [E|[]] & Iq). inversion E; subst. exact Iq.
        + intros Iq. exists NN, (Gate 0%Z (range_names (length (shape_or o))) o). split; [left; reflexivity|exact Iq].
      - split; intros q; cbn [map]; rewrite history_one; [|apply alike_refl]. apply (@word_clean (shape_or o)). rewrite (shape_or_eq _ Es). auto. }
    destruct o as [| | | | | |d|]; try (apply Non; congruence). clear Non. cbn [inner].
    destruct (Nu d eq_refl) as [n Rg]. inversion W as [| | | | | |? N Wg G|]; subst. assert (G' : gates_ok d) by exact G.
    assert (T : time_ordered d (in_order d)) by (split; [apply in_order_perm|apply in_order_sorted]).
    destruct (circ_known G' Es T Rg) as (NR & Lsh & Fit & Al & Esh & Ip & _). rewrite range_length in Lsh. subst n.
    split; [intros k g I; eapply Wg; apply (Ip _ I)|]. split; [intros k g I; apply (G k g), (Ip _ I)|]. split.
    { intros q. rewrite (proj1 Rg q). split; intros (k & g & I & Iq); exists k, g; split; auto.
      eapply Permutation_in; [apply in_order_perm|exact I]. }
    split; auto. intros q. unfold whole, whole_gate, word_at. cbn [gate_act gact map_gate snd g_qubits g_op spec_of fst on words].
    rewrite (shape_or_eq _ Es). destruct (mem q (range_names (length sh))) eqn:M; [apply mem_In in M|apply mem_false in M].
    - rewrite Esh at 2. rewrite map_map. cbn [role_word]. rewrite get_self by auto. apply alike_truncate, Al.
    - rewrite history_off.
      + destruct (get q (combine (range_names (length sh)) (map role_word sh))) eqn:E; [|apply alike_refl]. exfalso. apply M.
        apply get_In in E. eapply in_combine_l; eauto.
      + intros g Ig Iq. apply M. rewrite Forall_forall in Fit. destruct (Fit g Ig) as [_ X]. apply X; auto.
  Qed.

  Lemma noise_history nz qs q : op_shape nz = Ok [RW [LI; LO]] -> NoDup qs ->
    history (map (@gate_act S) (map (noise_gate nz) qs)) q = if mem q qs then [LI; LO] else [].
  Proof.
    intros Ez N. induction N as [|x qs Nx N IH]; auto. cbn [map]. rewrite history_cons, IH.
    assert (E : word_at (gate_act (noise_gate nz x)) q = if eqb q x then [LI; LO] else []).
    { unfold word_at, noise_gate, gate_act. cbn [gact map_gate snd g_qubits g_op spec_of fst on words]. rewrite (shape_or_eq _ Ez). cbn. destruct (eqb q x); auto. }
    rewrite E. cbn [mem existsb]. destruct (eqb_spec q x) as [->|_]; cbn [orb app]; auto.
    rewrite (proj2 (mem_false x qs) Nx). auto.
  Qed.
End Add.
