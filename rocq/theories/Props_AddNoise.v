(** Properties of adding noise to a circuit: C57. *)
From Coq Require Import Sorting.Permutation Sorting.Sorted.
From Verif Require Import Base Scalar NetSpec Sums NetAlg ModelArray ModelTN TNSpec ModelVal OpsSpec ModelOps ModelContract
  NameOrder Examples CircSpec CircOrder ModelCircuit CircSem CircShape CircCtrl CircMain CircBuild DensSpec CircDens CircDensNet CircDensOp CircPure
  CircUse CircNest CircNest2 ChanCirc FlatSpec ModelNoise NoisySpec NoiseAdd NoiseAdd2 NoiseAdd3 NoiseAdd4 NoiseAdd5 MatSpec NoiseSpec ChanTrace Props_Density.
Set Implicit Arguments.

(** ** C57: add_noise puts the noise channel after each operation, on each qubit that the operation outputs *)

(** [c] is any circuit that has a shape, without superpositions, whose operations that are themselves circuits have the
    qubits 0, 1, ...; [nz] is any channel on one qubit; [gates] is any listing of the operations of [c] in order of time
    and [Q] its sorted qubits.  add_noise succeeds, and the density tensor of what it returns is that of the circuit in
    which each operation is followed by the noise on each of its output qubits. *)
Theorem C57_add_noise (S : scalar) (c : circ (op S)) (nz : op S) sh gates Q :
  op_wf nz -> no_super nz -> op_shape nz = Ok [RW [LI; LO]] ->
  op_wf (OCirc c) -> no_super (OCirc c) -> op_shape (OCirc c) = Ok sh -> (forall k g, In (k, g) c -> numbered (g_op g)) ->
  time_ordered c gates -> register c Q ->
  exists d v, add_noise c nz = Ok d /\ tensor_density (OCirc d) = Ok v /\
    let n := count role_out sh in
    let m := count role_in sh in
    tval_shape v = twos ((n + m) + (n + m)) /\
    forall o i o' i', bits n o -> bits m i -> bits n o' -> bits m i' ->
      tval_value v (o ++ i ++ o' ++ i') = channel Q (with_noise nz gates) o i o' i'.
Proof.
  intros Wz Nz Ez W Ns Es Nu T Rg. destruct (add_noise_dens Wz Ez W Es Nu T Rg) as (sh' & Es' & Ei & Eo & Vd).
  destruct (hush_wf Wz Ez W Es Nu) as [Wd _].
  destruct (dens_ok Wd (hush_no_super Wz Ez W Ns Nz Es Nu) Es') as (v & Ev & _ & Sv & Vv).
  assert (Cnt : forall p (s s' : list role), map p s' = map p s -> count p s' = count p s).
  { intros p. unfold count. induction s as [|r s IH]; intros [|r' s'] E; try discriminate; auto. cbn [map] in E. injection E as E1 E2. cbn [filter]. rewrite E1.
    destruct (p r); cbn [length]; [f_equal|]; auto. }
  rewrite (Cnt _ _ _ Ei), (Cnt _ _ _ Eo) in *.
  exists (map (hush nz) c), v. split; [apply (add_noise_eq Wz Ez W Es Nu)|]. split; auto. split; auto.
  intros o i o' i' Bo Bi Bo' Bi'. rewrite Vv by auto. apply Vd; auto.
Qed.
Print Assumptions C57_add_noise.

(** The names, times and qubits of the operations stay, and each qubit of the circuit is an input, and an output, exactly
    when it was one before. *)
Theorem C57_keeps (S : scalar) (c : circ (op S)) (nz : op S) sh :
  op_wf nz -> op_shape nz = Ok [RW [LI; LO]] ->
  op_wf (OCirc c) -> op_shape (OCirc c) = Ok sh -> (forall k g, In (k, g) c -> numbered (g_op g)) ->
  exists d sh', add_noise c nz = Ok d /\ op_wf (OCirc d) /\
    map (fun p => (fst p, g_time (snd p), g_qubits (snd p))) d = map (fun p => (fst p, g_time (snd p), g_qubits (snd p))) c /\
    op_shape (OCirc d) = Ok sh' /\ map role_in sh' = map role_in sh /\ map role_out sh' = map role_out sh.
Proof.
  intros Wz Ez W Es Nu. destruct (hush_wf Wz Ez W Es Nu) as [Wd _]. inversion W as [| | | | | |? N Wg G|]; subst. assert (G' : gates_ok c) by exact G.
  assert (T : time_ordered c (in_order c)) by (split; [apply in_order_perm|apply in_order_sorted]).
  destruct (circ_facts G' Es) as (Q & AQ & _). pose proof (all_qubits_register _ AQ) as Rg.
  destruct (add_noise_dens Wz Ez W Es Nu T Rg) as (sh' & Es' & Ei & Eo & _).
  exists (map (hush nz) c), sh'. split; [apply (add_noise_eq Wz Ez W Es Nu)|]. split; auto. split; [|auto].
  rewrite map_map. apply map_ext. intros [k g]. reflexivity.
Qed.
Print Assumptions C57_keeps.

(** Noise that keeps the trace keeps it in the circuit. *)
Theorem C57_trace (S : scalar) (c : circ (op S)) (nz : op S) sh :
  op_wf nz -> no_super nz -> op_shape nz = Ok [RW [LI; LO]] ->
  op_wf (OCirc c) -> no_super (OCirc c) -> op_shape (OCirc c) = Ok sh -> (forall k g, In (k, g) c -> numbered (g_op g)) ->
  preserves_trace nz -> (forall k g, In (k, g) c -> preserves_trace (g_op g)) ->
  exists d, add_noise c nz = Ok d /\ preserves_trace (OCirc d).
Proof.
  intros Wz Nz Ez W Ns Es Nu Tz T. exists (map (hush nz) c). split; [apply (add_noise_eq Wz Ez W Es Nu)|].
  apply (noise_preserves Wz Ez W Ns Nz Es Nu); auto.
Qed.
Print Assumptions C57_trace.

(** The channel that does nothing leaves the density tensor of the circuit as it was. *)
Theorem C57_no_noise (S : scalar) (c : circ (op S)) (nz : op S) sh z :
  op_wf nz -> no_super nz -> op_shape nz = Ok [RW [LI; LO]] -> tensor_density nz = Ok z ->
  (forall a b a' b', bits 4 [a; b; a'; b'] -> tval_value z [a; b; a'; b'] = if Nat.eqb a b && Nat.eqb a' b' then k1 else k0) ->
  op_wf (OCirc c) -> no_super (OCirc c) -> op_shape (OCirc c) = Ok sh -> (forall k g, In (k, g) c -> numbered (g_op g)) ->
  exists d u v, add_noise c nz = Ok d /\ tensor_density (OCirc c) = Ok u /\ tensor_density (OCirc d) = Ok v /\
    let n := count role_out sh in
    let m := count role_in sh in
    tval_shape u = twos ((n + m) + (n + m)) /\ tval_shape v = twos ((n + m) + (n + m)) /\
    forall o i o' i', bits n o -> bits m i -> bits n o' -> bits m i' -> tval_value v (o ++ i ++ o' ++ i') = tval_value u (o ++ i ++ o' ++ i').
Proof.
  intros Wz Nz Ez Dz Id W Ns Es Nu. destruct (dens_ok W Ns Es) as (u & Eu & _ & Su & Vu).
  destruct (C57_keeps Wz Ez W Es Nu) as (d & sh' & Ed & Wd & _ & Es' & Ei & Eo). rewrite (add_noise_eq Wz Ez W Es Nu) in Ed. injection Ed as <-.
  destruct (dens_ok Wd (hush_no_super Wz Ez W Ns Nz Es Nu) Es') as (v & Ev & _ & Sv & Vv).
  assert (Cnt : forall p (s s' : list role), map p s' = map p s -> count p s' = count p s).
  { intros p. unfold count. induction s as [|r s IH]; intros [|r' s'] E; try discriminate; auto. cbn [map] in E. injection E as E1 E2. cbn [filter]. rewrite E1.
    destruct (p r); cbn [length]; [f_equal|]; auto. }
  rewrite (Cnt _ _ _ Ei), (Cnt _ _ _ Eo) in *.
  exists (map (hush nz) c), u, v. split; [apply (add_noise_eq Wz Ez W Es Nu)|]. do 4 (split; auto).
  intros o i o' i' Bo Bi Bo' Bi'. rewrite Vv, Vu by auto. apply (nothing_dens Wz Ez) with (sh := sh); auto.
  intros a b a' b' Ha Hb Ha' Hb'. destruct (dens_ok Wz Nz Ez) as (z' & Ez' & _ & _ & Vz). rewrite Dz in Ez'. injection Ez' as <-.
  assert (B1 : forall x, (x < 2)%nat -> bits 1 [x]) by (intros x Hx; split; auto).
  rewrite <- (Vz [a] [b] [a'] [b']) by (apply B1; auto). cbn [app]. rewrite Id; [reflexivity|]. split; auto.
Qed.
Print Assumptions C57_no_noise.

(** A matrix on a after a phase on a, given out of order of time, and a preparation on b; and a circuit with a nested one. *)
Definition smallc : circ (op GK) :=
  [(NS "m", Gate 1%Z [qa] gm); (NS "n", Gate 0%Z [qa] gi); (NS "p", Gate 0%Z [qb] (OState (S := GK) true))].
Definition numc : circ (op GK) :=
  [(NS "c", Gate 0%Z [qb; qa] (OCirc [(NS "x", Gate 1%Z [NI 0] gm); (NS "y", Gate 0%Z [NI 1] gi)])); (NS "m", Gate 1%Z [qa] (OMeas (S := GK) true))].
Example C57_somewhere : op_wf gnoise /\ no_super gnoise /\ op_shape gnoise = Ok [RW [LI; LO]] /\
  op_wf (OCirc smallc) /\ no_super (OCirc smallc) /\ op_shape (OCirc smallc) = Ok [RW [LI; LO]; RW [LO]] /\
  (forall k g, In (k, g) smallc -> numbered (g_op g)) /\
  entry (tensor_density (OCirc smallc)) [1; 1; 1; 0; 1; 1] = Some (2, -6)%Z /\
  entry (do d <- add_noise smallc gnoise; tensor_density (OCirc d)) [1; 1; 1; 0; 1; 1] = Some (2204, -1268)%Z.
Proof.
  split; [apply wf_gnoise|]. split; [constructor|]. split; [reflexivity|].
  split. { constructor; [nodup| |]; intros k g I; simpl in I;
      repeat (destruct I as [I|I]; [inversion I; subst; simpl; first [apply wf_gm|apply wf_gi|apply wf_state|split; [nodup|vm_compute; reflexivity]]|]); contradiction. }
  split. { constructor. intros k g I. simpl in I. repeat (destruct I as [I|I]; [inversion I; subst; constructor|]). contradiction. }
  split; [vm_compute; reflexivity|].
  split. { intros k g I. simpl in I. repeat (destruct I as [I|I]; [inversion I; subst; intros c E; discriminate E|]). contradiction. }
  split; vm_compute; reflexivity.
Qed.
Example C57_nested_somewhere : op_wf (OCirc numc) /\ no_super (OCirc numc) /\ op_shape (OCirc numc) = Ok [RW [LI]; RW [LI; LO]] /\
  (forall k g, In (k, g) numc -> numbered (g_op g)).
Proof.
  assert (W : op_wf (OCirc [(NS "x", Gate 1%Z [NI 0] gm); (NS "y", Gate 0%Z [NI 1] gi)])).
  { constructor; [nodup| |]; intros k g I; simpl in I;
      repeat (destruct I as [I|I]; [inversion I; subst; simpl; first [apply wf_gm|apply wf_gi|split; [nodup|vm_compute; reflexivity]]|]); contradiction. }
  assert (N : no_super (OCirc [(NS "x", Gate 1%Z [NI 0] gm); (NS "y", Gate 0%Z [NI 1] gi)])).
  { constructor. intros k g I. simpl in I. repeat (destruct I as [I|I]; [inversion I; subst; constructor|]). contradiction. }
  split. { constructor; [nodup| |]; intros k g I; simpl in I;
      repeat (destruct I as [I|I]; [inversion I; subst; simpl; first [apply W|apply wf_meas|split; [nodup|vm_compute; reflexivity]]|]); contradiction. }
  split. { constructor. intros k g I. simpl in I. repeat (destruct I as [I|I]; [inversion I; subst; first [apply N|constructor]|]). contradiction. }
  split; [vm_compute; reflexivity|].
  intros k g I. simpl in I. destruct I as [I|[I|[]]]; inversion I; subst; intros c E; [|discriminate E].
  cbn [g_op] in E. injection E as <-. exists 2%nat. apply all_qubits_register. vm_compute. reflexivity.
Qed.
(** The channel that does nothing meets the hypotheses of C57_no_noise. *)
Definition gid : op GK :=
  OImm [RW [LI; LO]] (VTensor (Some (ND (S := GK) [2; 2; 2; 2]
    (fun x => match x with [a; b; c; d] => if Nat.eqb a b && Nat.eqb c d then k1 else k0 | _ => k0 end)))).
Add Ring K_ring_p57 : (kring GK).
Example C57_no_noise_somewhere : op_wf gid /\ no_super gid /\ op_shape gid = Ok [RW [LI; LO]] /\ preserves_trace gid /\
  exists z, tensor_density gid = Ok z /\
    forall a b a' b', bits 4 [a; b; a'; b'] -> tval_value z [a; b; a'; b'] = if Nat.eqb a b && Nat.eqb a' b' then k1 else k0.
Proof.
  split; [constructor; [constructor|reflexivity|reflexivity]|]. split; [constructor|]. split; [reflexivity|].
  assert (H : exists z, tensor_density gid = Ok z /\
    forall a b a' b', bits 4 [a; b; a'; b'] -> tval_value z [a; b; a'; b'] = if Nat.eqb a b && Nat.eqb a' b' then k1 else k0).
  { eexists. split; [reflexivity|]. reflexivity. }
  split; auto. destruct H as (z & Ez & Vz). exists [RW [LI; LO]], z. split; auto. split; auto.
  intros rho. unfold mtrace, chan_apply, entries_of. change (count role_out [RW [LI; LO]]) with 1%nat. change (count role_in [RW [LI; LO]]) with 1%nat. change (words2 1) with [[0%nat]; [1%nat]]. cbn [app sumf].
  rewrite !Vz by (split; [reflexivity|repeat constructor]). cbn [Nat.eqb andb]. ring.
Qed.

(** An operation that is itself a circuit with a qubit of another name: the noise is appended to positions, not to the
    qubits of the operation, and the circuit that results does not fit its place. *)
Theorem C57_labels_refuted :
  exists (c : circ (op GK)) sh, op_wf (OCirc c) /\ no_super (OCirc c) /\ op_shape (OCirc c) = Ok sh /\ add_noise c gnoise = Err ValueError.
Proof.
  exists [(NS "c", Gate 0%Z [qa] (OCirc [(NS "m", Gate 0%Z [NI 3] gm)]))], [RW [LI; LO]].
  assert (W : op_wf (OCirc [(NS "m", Gate 0%Z [NI 3] gm)])).
  { constructor; [nodup| |]; intros k g [I|[]]; inversion I; subst; simpl; [apply wf_gm|split; [nodup|reflexivity]]. }
  split. { constructor; [nodup| |]; intros k g [I|[]]; inversion I; subst; simpl; [apply W|split; [nodup|vm_compute; reflexivity]]. }
  split. { constructor. intros k g [I|[]]. inversion I; subst. constructor. intros k g [I2|[]]. inversion I2; subst. constructor. }
  split; vm_compute; reflexivity.
Qed.
Print Assumptions C57_labels_refuted.
