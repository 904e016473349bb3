(** Properties of circuits: C34, C35, C36, C37, C38, C40, C45. *)
From Coq Require Import Sorting.Permutation Sorting.Sorted.
From Verif Require Import Base Scalar NetSpec Sums NetAlg ModelArray ModelTN TNSpec ModelVal OpsSpec ModelOps ModelContract
  NameOrder Examples CircSpec CircOrder ModelCircuit CircSem CircShape CircCtrl CircMain CircBuild CircAdj CircUse CircMul.
Set Implicit Arguments.

(** Operations used in the examples, over the integers: a bit flip, a sign flip, a matrix that is neither symmetric nor
    diagonal, a matrix on two qubits. *)
Definition gX : op ZK := OPure true [RW [LI; LO]] (zmat 2 2 [0; 1; 1; 0]%Z).
Definition gZ : op ZK := OPure true [RW [LI; LO]] (zmat 2 2 [1; 0; 0; -1]%Z).
Definition gN : op ZK := OPure false [RW [LI; LO]] (zmat 2 2 [1; 2; 3; 5]%Z).
Definition gS (z : Z) : op ZK := OPure false [] (zscal z).
Definition q4 (f : nat -> nat -> nat -> nat -> Z) : ZT :=
  VTensor (Some (ND (S := ZK) [2; 2; 2; 2] (fun x => match x with [a; b; c; d] => f a b c d | _ => 0%Z end))).
Definition gW : op ZK :=
  OPure false [RW [LI; LO]; RW [LI; LO]] (q4 (fun a b c d => (1 + Z.of_nat a + 2 * Z.of_nat b + 5 * Z.of_nat c * Z.of_nat d)%Z)).
Definition qa : name := NS "a".
Definition qb : name := NS "b".
Lemma wf_gX : op_wf gX. Proof. constructor; [constructor|reflexivity|reflexivity]. Qed.
Lemma wf_gZ : op_wf gZ. Proof. constructor; [constructor|reflexivity|reflexivity]. Qed.
Lemma wf_gN : op_wf gN. Proof. constructor; [constructor|reflexivity|reflexivity]. Qed.
Lemma wf_gS z : op_wf (gS z). Proof. constructor; [constructor|reflexivity|reflexivity]. Qed.
Lemma wf_gW : op_wf gW. Proof. constructor; [constructor|reflexivity|reflexivity]. Qed.
#[local] Hint Resolve wf_gX wf_gZ wf_gN wf_gS wf_gW : core.
Ltac gates := intros; repeat match goal with
  | H : _ \/ _ |- _ => destruct H
  | H : False |- _ => destruct H
  | H : (_, _) = (_, _) |- _ => inversion H; subst; clear H
  | H : In _ (_ :: _) |- _ => destruct H
  | H : In _ [] |- _ => destruct H
  end.
Ltac nodup := apply nodupb_NoDup; vm_compute; reflexivity.

(** ** C34: every appended operation is kept and applied in time order *)

(** When no two calls of append ask for the same name, the circuit is exactly what the calls ask for. *)
Theorem C34_appends_kept (S : scalar) (l : list (call S)) c :
  placed l c -> NoDup (keys c) ->
  (forall x, In x l -> NoDup (c_qubits x) /\ op_len (c_op x) = Ok (length (c_qubits x))) ->
  appends l [] = Ok c.
Proof. apply placed_accepts. Qed.
Print Assumptions C34_appends_kept.

(** Appending is refused only for repeated qubits or a wrong number of them. *)
Theorem C34_append_accepts (S : scalar) (o : op S) qs time nm c n :
  op_len o = Ok n ->
  (exists c', c_append o qs time nm c = Ok c') <-> NoDup qs /\ length qs = n.
Proof.
  intros L. split.
  - intros (c' & E). apply c_append_ok in E as (N & L' & _). split; auto. congruence.
  - intros [N Ln]. eexists. apply c_append_ok. split; auto. split; [congruence|reflexivity].
Qed.
Print Assumptions C34_append_accepts.

(** One call, on any circuit: the operation is there under its name with its qubits and time, after all others if no
    time was given; operations under other names are unchanged. *)
Theorem C34_append_step (S : scalar) (o : op S) qs time nm c c' :
  c_append o qs time nm c = Ok c' ->
  exists t k, (time = Some t \/ time = None /\ next_time c t) /\ (nm = Some k \/ nm = None /\ k = NT [NI t; NT qs]) /\
    get k c' = Some (Gate t qs o) /\ forall k', k' <> k -> get k' c' = get k' c.
Proof.
  intros E. apply c_append_ok in E as (_ & _ & ->). exists (slot time c), (label nm (slot time c) qs). repeat split.
  - destruct time; simpl; auto. right. split; auto. apply next_max.
  - destruct nm; simpl; auto.
  - apply get_set_eq.
  - intros k' N. apply get_set_neq. auto.
Qed.
Print Assumptions C34_append_step.

(** Operations are applied in order of time: the order used is a permutation of the circuit sorted by time, and an
    operation appended without a time comes last. *)
Theorem C34_time_order (S : scalar) (c : circ (op S)) : time_ordered c (in_order c).
Proof. split; [apply in_order_perm|apply in_order_sorted]. Qed.
Print Assumptions C34_time_order.
Theorem C34_append_last (S : scalar) (o : op S) qs nm c c' :
  c_append o qs None nm c = Ok c' ->
  forall k g, In (k, g) c' -> (k, g) = (match nm with Some n => n | None => k end, Gate (1 + max_time c)%Z qs o) \/
                              (g_time g < 1 + max_time c)%Z.
Proof.
  intros E k g I. apply c_append_ok in E as (_ & _ & ->). apply set_In in I as [I|I].
  - left. inversion I; subst. destruct nm; reflexivity.
  - right. pose proof (max_time_le c (k, g) I) as H. simpl in H. lia.
Qed.
Print Assumptions C34_append_last.

Definition ex_calls : list (call ZK) :=
  [ Call gN [qa] (Some 3%Z) None; Call (OState (S := ZK) true) [qa] (Some (-2)%Z) (Some (NS "prep"));
    Call gW [qb; qa] None None; Call (OMeas (S := ZK) false) [qb] None None ].
Definition ex_circ : circ (op ZK) :=
  [ (NT [NI 3; NT [qa]], Gate 3%Z [qa] gN); (NS "prep", Gate (-2)%Z [qa] (OState (S := ZK) true));
    (NT [NI 4; NT [qb; qa]], Gate 4%Z [qb; qa] gW); (NT [NI 5; NT [qb]], Gate 5%Z [qb] (OMeas (S := ZK) false)) ].
Lemma ex_placed : placed ex_calls ex_circ.
Proof.
  unfold ex_calls, ex_circ.
  assert (N1 : forall (c : circ (op ZK)) t, (1 + max_time c)%Z = t -> next_time c t) by (intros c t <-; apply next_max).
  apply (pl_snoc (l := [_; _; _]) (c := [_; _; _]) (Call (OMeas (S := ZK) false) [qb] None None)); [|right; split; auto; apply N1; reflexivity|simpl; auto].
  apply (pl_snoc (l := [_; _]) (c := [_; _]) (Call gW [qb; qa] None None)); [|right; split; auto; apply N1; reflexivity|simpl; auto].
  apply (pl_snoc (l := [_]) (c := [_]) (Call (OState (S := ZK) true) [qa] (Some (-2)%Z) (Some (NS "prep")))); [|simpl; auto|simpl; auto].
  apply (pl_snoc (l := []) (c := []) (Call gN [qa] (Some 3%Z) None)); [constructor|simpl; auto|simpl; auto].
Qed.
Example C34_somewhere : placed ex_calls ex_circ /\ NoDup (keys ex_circ) /\
  (forall x, In x ex_calls -> NoDup (c_qubits x) /\ op_len (c_op x) = Ok (length (c_qubits x))) /\
  appends ex_calls [] = Ok ex_circ /\ map fst (in_order ex_circ) = [NS "prep"; NT [NI 3; NT [qa]]; NT [NI 4; NT [qb; qa]]; NT [NI 5; NT [qb]]].
Proof.
  split; [apply ex_placed|]. split; [nodup|]. split; [|split; reflexivity].
  intros x [<-|[<-|[<-|[<-|[]]]]]; split; try reflexivity; nodup.
Qed.

(** Without the condition on names the property fails: a name is reused, here the default name of two operations without
    qubits, and the first operation is lost. *)
Theorem C34_name_reuse_refuted :
  exists (l : list (call ZK)) c c', placed l c /\ appends l [] = Ok c' /\ (length c = 2 /\ length c' = 1)%nat /\
    (forall x, In x l -> op_wf (c_op x) /\ c_qubits x = [] /\ c_time x = Some 0%Z /\ c_name x = None).
Proof.
  exists [Call (gS 2) [] (Some 0%Z) None; Call (gS 3) [] (Some 0%Z) None],
         [(NT [NI 0; NT []], Gate 0%Z [] (gS 2)); (NT [NI 0; NT []], Gate 0%Z [] (gS 3))],
         [(NT [NI 0; NT []], Gate 0%Z [] (gS 3))].
  split; [|split; [reflexivity|split; [split; reflexivity|]]].
  - apply (pl_snoc (l := [_]) (c := [_]) (Call (gS 3) [] (Some 0%Z) None)); [|simpl; auto|simpl; auto].
    apply (pl_snoc (l := []) (c := []) (Call (gS 2) [] (Some 0%Z) None)); [constructor|simpl; auto|simpl; auto].
  - intros x [<-|[<-|[]]]; simpl; auto.
Qed.
Print Assumptions C34_name_reuse_refuted.

(** ** C35: the shape reports exactly the free inputs and outputs *)

(** For any order [l] of the gates that respects time: the shape has one entry per used qubit, in sorted order; the entry
    is an input iff the first use of the qubit consumes it, an output iff the last use produces it. *)
Theorem C35_shape (S : scalar) (c l : circ (op S)) sh :
  op_wf (OCirc c) -> op_shape (OCirc c) = Ok sh -> time_ordered c l ->
  exists Q, register c Q /\
    Forall2 (fun q r => role_in r = starts_in (history (acts_of l) q) /\ role_out r = ends_out (history (acts_of l) q)) Q sh.
Proof.
  intros W E [P St]. inversion W as [| | | | | |? N Wg G|]; subst. assert (G' : gates_ok c) by exact G.
  destruct (any_order G' E P St) as (Q & AQ & Al & _ & _ & Esh & _). exists Q. split; [apply all_qubits_register; auto|].
  rewrite Esh. change (map (@gate_act S) l) with (acts_of l) in *.
  assert (F : forall R : list name, Forall2 (fun q r => role_in r = starts_in (history (acts_of l) q) /\ role_out r = ends_out (history (acts_of l) q)) R
            (map (fun q => RW (truncate (history (acts_of l) q))) R)); auto.
  induction R as [|q R IH]; simpl; constructor; auto. destruct (truncate_shape _ (Al q)) as (H1 & H2 & _). auto.
Qed.
Print Assumptions C35_shape.

(** When the names of the qubits compare, a circuit is valid iff the uses of each qubit alternate between consumption and
    production and no qubit is used twice at one time. *)
Theorem C35_valid (S : scalar) (c l : circ (op S)) :
  op_wf (OCirc c) -> names_compare c -> time_ordered c l ->
  exists b, is_ok (op_shape (OCirc c)) = Ok b /\
    (b = true <-> once_at_a_time c /\ forall q, alternating (history (acts_of l) q)).
Proof.
  intros W Nc [P St]. inversion W as [| | | | | |? N Wg G|]; subst. assert (G' : gates_ok c) by exact G.
  destruct (register_exists Nc) as (Q & AQ).
  change (acts_of l) with (map (@gate_act S) l).
  destruct (op_shape (OCirc c)) as [sh|e] eqn:E.
  - exists true. split; auto. split; auto. intros _. destruct (circ_facts G' E) as (_ & _ & Ap & _).
    destruct (any_order G' E P St) as (_ & _ & Al & _). split; auto. apply once_apart; auto.
  - assert (He : e = ValueError).
    { destruct (gates_ok_shapes G') as [Es Gk]. rewrite shape_circ, Es in E. pose proof (circ_shape_spec Gk) as Sp. rewrite E in Sp.
      destruct e; try tauto. rewrite all_qubits_map in Sp. congruence. }
    subst e. exists false. split; auto. split; [discriminate|]. intros [O Al].
    destruct (@shape_exists S c l Q G') as (sh & Esh); auto; [apply once_apart; auto|congruence].
Qed.
Print Assumptions C35_valid.

Lemma ex_wf : op_wf (OCirc ex_circ).
Proof.
  apply (@appends_wf ZK ex_calls [] ex_circ); [apply wf_empty| |reflexivity].
  intros x [<-|[<-|[<-|[<-|[]]]]]; simpl; auto; constructor.
Qed.
Lemma ex_order : time_ordered ex_circ (in_order ex_circ).
Proof. apply C34_time_order. Qed.
Example C35_somewhere :
  op_wf (OCirc ex_circ) /\ names_compare ex_circ /\ op_shape (OCirc ex_circ) = Ok [RW [LO]; RW [LI]] /\
  op_pure (OCirc ex_circ) = Ok true /\
  is_ok (op_shape (OCirc [(NN, Gate 0%Z [qa] gX); (NI 7, Gate 0%Z [qa] gX)])) = Ok false.
Proof.
  split; [apply ex_wf|]. split; [|split; [|split]; vm_compute; reflexivity].
  assert (H : forall q, used ex_circ q -> q = qa \/ q = qb).
  { intros q (k & g & I & J). repeat (destruct I as [I|I]; [inversion I; subst; simpl in J; intuition congruence|]). destruct I. }
  intros x y Ux Uy _. apply H in Ux, Uy. destruct Ux as [-> | ->], Uy as [-> | ->]; eexists; reflexivity.
Qed.

(** ** C36: tensor_pure of a circuit is the time-ordered product of its operations *)

(** For any order [l] of the gates that respects time: the tensor of a valid pure circuit has one bond of dimension 2 per
    output and per input, and its entries are the amplitudes of the product of the operations in that order, on the
    register of the used qubits. *)
Theorem C36_circuit (S : scalar) (c l : circ (op S)) :
  op_wf (OCirc c) -> op_pure (OCirc c) = Ok true -> time_ordered c l ->
  exists Q v, register c Q /\ tensor_pure (OCirc c) = Ok v /\ complete v /\
    let no := length (wires_out Q (acts_of l)) in
    let ni := length (wires_in Q (acts_of l)) in
    tval_shape v = twos (no + ni) /\
    forall o i, bits no o -> bits ni i -> tval_value v (o ++ i) = amplitude Q (acts_of l) o i.
Proof.
  intros W P [Pl St]. inversion W as [| | | | | |? N Wg G|]; subst. assert (G' : gates_ok c) by exact G.
  destruct (conv_ok W) as [Hc _]. destruct (Hc P) as (sh & E & v & Ev & Cv & Sv & Vv).
  destruct (any_order G' E Pl St) as (Q & AQ & Al & Co & Ci & Esh & Am).
  exists Q, v. split; [apply all_qubits_register; auto|]. split; auto. split; auto. cbv zeta.
  change (acts_of l) with (map (@gate_act S) l). rewrite <- Co, <- Ci. split; auto. intros o i Bo Bi. rewrite Vv, Am; auto.
Qed.
Print Assumptions C36_circuit.

(** All operations: the tensor of a pure operation (with nested circuits, superpositions, controls) has its amplitudes as
    entries.  [op_amp] is defined in CircSem; for a circuit it is the product of C36_circuit. *)
Theorem C36_operation (S : scalar) (o : op S) :
  op_wf o -> op_pure o = Ok true -> exists sh, op_shape o = Ok sh /\ tensor_ok (tensor_pure o) sh (op_amp o).
Proof. intros W P. destruct (conv_ok W) as [H _]. auto. Qed.
Print Assumptions C36_operation.

(** What append builds from well-formed operations is well-formed. *)
Theorem C36_built (S : scalar) (l : list (call S)) c :
  (forall x, In x l -> op_wf (c_op x)) -> appends l [] = Ok c -> op_wf (OCirc c).
Proof. intros H E. eapply appends_wf; eauto. apply wf_empty. Qed.
Print Assumptions C36_built.

(** The tensor of the example: prepare 1, apply gN, gW with the other qubit, measure 0 on it. *)
Example C36_somewhere : op_wf (OCirc ex_circ) /\ op_pure (OCirc ex_circ) = Ok true /\ time_ordered ex_circ (in_order ex_circ) /\
  exists v, tensor_pure (OCirc ex_circ) = Ok v /\ map (tval_value v) [[0; 0]; [0; 1]; [1; 0]; [1; 1]] = [7; 32; 21; 46]%Z.
Proof.
  split; [apply ex_wf|]. split; [vm_compute; reflexivity|]. split; [apply ex_order|]. eexists. split; vm_compute; reflexivity.
Qed.

(** ** C37: a | b composes: first a, then b *)

(** [first_part a] and [second_part a b] are the operations that the operands stand for: those of a circuit in order of
    time, or an operation as a whole on the qubits 0, 1, ...  (A circuit to the right of an operation that is not a
    circuit is taken as a whole.)  Conditions: the wires alternate, the names of the qubits compare, and no gate of [a]
    has a name that looks like a default name for a later time. *)
Theorem C37_or (S : scalar) (a b : op S) sa sb :
  op_wf a -> op_wf b -> op_shape a = Ok sa -> op_shape b = Ok sb -> op_pure a = Ok true -> op_pure b = Ok true ->
  left_free a ->
  let gs := first_part a ++ second_part a b in
  (forall q, alternating (history gs q)) ->
  (forall x y, acts_used gs x -> acts_used gs y -> x <> y -> exists r, name_lt x y = Ok r) ->
  exists r sh Q, op_or a b = Ok r /\ op_wf r /\ op_pure r = Ok true /\ op_shape r = Ok sh /\
    (forall q, In q Q <-> acts_used gs q) /\ StronglySorted (fun x y => name_lt x y = Ok true) Q /\
    count role_out sh = length (wires_out Q gs) /\ count role_in sh = length (wires_in Q gs) /\
    tensor_ok (tensor_pure r) sh (amplitude Q gs).
Proof.
  intros Wa Wb Ea Eb Pa Pb F gs Al Cmp.
  destruct (or_ok Wa Wb Ea Eb Pa Pb F Al Cmp) as (r & sh & Q & H1 & H2 & H3 & H4 & H5 & H6 & _ & H7 & H8 & H9).
  exists r, sh, Q. repeat (split; auto).
Qed.
Print Assumptions C37_or.

(** When the outputs of [a] are the inputs of [b], the tensor of a | b is the matrix product of the two tensors. *)
Theorem C37_product (S : scalar) (a b : op S) sa sb :
  op_wf a -> op_wf b -> op_shape a = Ok sa -> op_shape b = Ok sb -> op_pure a = Ok true -> op_pure b = Ok true ->
  left_free a ->
  let gs := first_part a in
  let hs := second_part a b in
  (forall q, alternating (history (gs ++ hs) q)) ->
  (forall q, ends_out (history gs q) = starts_in (history hs q)) ->
  (forall x y, acts_used (gs ++ hs) x -> acts_used (gs ++ hs) y -> x <> y -> exists r, name_lt x y = Ok r) ->
  exists r v va vb, op_or a b = Ok r /\ tensor_pure r = Ok v /\ tensor_pure a = Ok va /\ tensor_pure b = Ok vb /\
    tval_shape v = twos (count role_out sb + count role_in sa) /\
    forall o i, bits (count role_out sb) o -> bits (count role_in sa) i ->
      tval_value v (o ++ i) =
      sumf (fun m => kmul (tval_value vb (o ++ m)) (tval_value va (m ++ i))) (indices (repeat 2%nat (count role_out sa))).
Proof.
  intros Wa Wb Ea Eb Pa Pb F gs hs Al Ew Cmp.
  destruct (or_ok Wa Wb Ea Eb Pa Pb F Al Cmp) as (r & sh & Q & H1 & H2 & H3 & H4 & H5 & H6 & NQ & H7 & H8 & (v & Ev & Cv & Sv & Vv)).

  destruct (conv_ok Wa) as [Ha _]. destruct (Ha Pa) as (sa' & Ea' & va & Eva & _ & _ & Va).
  rewrite Ea in Ea'. inversion Ea'; subst sa'. clear Ea'.
  destruct (conv_ok Wb) as [Hb _]. destruct (Hb Pb) as (sb' & Eb' & vb & Evb & _ & _ & Vb).
  rewrite Eb in Eb'. inversion Eb'; subst sb'. clear Eb'.
  assert (Iw : forall g, In g (gs ++ hs) -> incl (on g) Q) by (intros g Ig q Iq; apply H5; exists g; auto).
  assert (Ew' : wires_out Q gs = wires_in Q hs) by (unfold wires_out, wires_in; apply filter_ext; auto).
  destruct (or_product Wa Wb Ea Eb (first_is_part a) (second_is_part a b) NQ H6 Iw Al Ew') as (Lo & Li & Am).
  destruct (part_ok (first_is_part a) Wa Ea NQ H6) as (Ao & _ & _ & _); [intros g Ig; apply Iw, in_app_iff; auto|].
  destruct (part_ok (second_is_part a b) Wb Eb NQ H6) as (_ & Bi & _ & _); [intros g Ig; apply Iw, in_app_iff; auto|].

  exists r, v, va, vb. split; auto. split; auto. split; auto. split; auto. rewrite H7, H8, Lo, Li in Sv. split; auto.
  intros o i Bo Bi'. rewrite Vv by (rewrite ?H7, ?H8, ?Lo, ?Li; auto). rewrite Am by auto. apply sumf_ext. intros m Im.
  apply in_bits in Im. rewrite Va, Vb; auto. rewrite <- Bi. change (second_part a b) with hs. rewrite <- Ew'. change gs with (first_part a). rewrite Ao. auto.
Qed.
Print Assumptions C37_product.

Definition cX : circ (op ZK) := [(NT [NI 0; NT [qa]], Gate 0%Z [qa] gN); (NT [NI 1; NT [qa; qb]], Gate 1%Z [qa; qb] gW)].
Definition cY : circ (op ZK) := [(NS "m", Gate 7%Z [qb] (OMeas (S := ZK) true)); (NS "x", Gate 3%Z [qb; qa] gW)].
Lemma wf_cX : op_wf (OCirc cX).
Proof.
  constructor; [nodup| |]; intros k g [E|[E|[]]]; inversion E; subst; simpl; auto; split; auto; nodup.
Qed.
Lemma wf_cY : op_wf (OCirc cY).
Proof.
  constructor; [nodup| |]; intros k g [E|[E|[]]]; inversion E; subst; simpl; auto; try constructor; auto; nodup.
Qed.
Lemma cXY_names : forall x, acts_used (first_part (OCirc cX) ++ second_part (OCirc cX) (OCirc cY)) x -> x = qa \/ x = qb.
Proof.
  intros x (g & I & J). apply in_app_iff in I as [I|I]; simpl in I;
    repeat (destruct I as [<-|I]; [simpl in J; intuition congruence|]); destruct I.
Qed.
Example C37_somewhere : op_wf (OCirc cX) /\ op_wf (OCirc cY) /\
  op_shape (OCirc cX) = Ok [RW [LI; LO]; RW [LI; LO]] /\ op_shape (OCirc cY) = Ok [RW [LI; LO]; RW [LI]] /\
  op_pure (OCirc cX) = Ok true /\ op_pure (OCirc cY) = Ok true /\ left_free (OCirc cX) /\
  (let gs := first_part (OCirc cX) in let hs := second_part (OCirc cX) (OCirc cY) in
   (forall q, alternating (history (gs ++ hs) q)) /\ (forall q, ends_out (history gs q) = starts_in (history hs q)) /\
   (forall x y, acts_used (gs ++ hs) x -> acts_used (gs ++ hs) y -> x <> y -> exists r, name_lt x y = Ok r)) /\
  exists r v, op_or (OCirc cX) (OCirc cY) = Ok r /\ tensor_pure r = Ok v /\ tval_value v [1; 0; 1] = 555%Z.
Proof.
  split; [apply wf_cX|]. split; [apply wf_cY|]. split; [vm_compute; reflexivity|]. split; [vm_compute; reflexivity|].
  split; [vm_compute; reflexivity|]. split; [vm_compute; reflexivity|]. split; [|split].
  - intros t qs L I. change (max_time cX) with 1%Z in L.
    destruct I as [E|[E|[]]]; [assert (0 = t)%Z by (injection E; auto)|assert (1 = t)%Z by (injection E; auto)]; lia.
  - cbv zeta. split; [|split].
    + intros q. unfold history. simpl. unfold word_at. simpl.
      destruct (eqb_spec q qa) as [->|]; [vm_compute; intuition discriminate|].
      destruct (eqb_spec q qb) as [->|]; [vm_compute; intuition discriminate|]. simpl. auto.
    + intros q. unfold history. simpl. unfold word_at. simpl.
      destruct (eqb_spec q qa) as [->|]; [reflexivity|].
      destruct (eqb_spec q qb) as [->|]; [reflexivity|]. reflexivity.
    + intros x y Ux Uy _. apply cXY_names in Ux, Uy. destruct Ux as [-> | ->], Uy as [-> | ->]; eexists; reflexivity.
  - do 2 eexists. split; [vm_compute; reflexivity|]. split; vm_compute; reflexivity.
Qed.

(** The condition on names cannot be dropped: a gate of [a] with a name such as (1, ("a",)) is overwritten. *)
Theorem C37_name_refuted :
  exists (c d : circ (op ZK)) r v, op_wf (OCirc c) /\ op_wf (OCirc d) /\ op_pure (OCirc c) = Ok true /\ op_pure (OCirc d) = Ok true /\
    op_shape (OCirc c) = Ok [RW [LI; LO]] /\ op_shape (OCirc d) = Ok [RW [LI; LO]] /\
    op_or (OCirc c) (OCirc d) = Ok r /\ tensor_pure r = Ok v /\
    exists va vb, tensor_pure (OCirc c) = Ok va /\ tensor_pure (OCirc d) = Ok vb /\
    tval_value v [0; 0] <> sumf (fun m => kmul (tval_value vb ([0] ++ m)) (tval_value va (m ++ [0]))) (indices [2]).
Proof.
  exists [(NT [NI 1; NT [qa]], Gate 0%Z [qa] gN)], [(NS "x", Gate 0%Z [qa] gN)].
  do 2 eexists. split; [|split].
  1,2: constructor; [nodup| |]; intros k g [E|[]]; inversion E; subst; simpl; auto; split; auto; nodup.
  split; [vm_compute; reflexivity|]. split; [vm_compute; reflexivity|]. split; [vm_compute; reflexivity|]. split; [vm_compute; reflexivity|].
  split; [vm_compute; reflexivity|]. split; [vm_compute; reflexivity|]. do 2 eexists.
  split; [vm_compute; reflexivity|]. split; [vm_compute; reflexivity|]. vm_compute. discriminate.
Qed.
Print Assumptions C37_name_refuted.

(** ** C38: adjoints *)

(** The tensor of ~o is the conjugate of the tensor of o with inputs and outputs exchanged, and ~o can be used like o.
    [reversible]: what is flagged self-adjoint is so, no two operations without qubits stand at one time of a circuit (two
    operations with the same qubits at one time make the circuit invalid anyway), no controlled circuit. *)
Theorem C38_adjoint (S : scalar) (o : op S) sh :
  op_wf o -> reversible o -> op_pure o = Ok true -> op_shape o = Ok sh ->
  exists o' v v', adj o = Ok o' /\ op_wf o' /\ reversible o' /\ op_pure o' = Ok true /\ op_shape o' = Ok (map flip_role sh) /\
    tensor_pure o = Ok v /\ tensor_pure o' = Ok v' /\ tval_shape v' = twos (count role_in sh + count role_out sh) /\
    forall x y, bits (count role_out sh) x -> bits (count role_in sh) y ->
      tval_value v' (y ++ x) = kconj (tval_value v (x ++ y)).
Proof.
  intros W R P E. destruct (adj_ok W R P E) as (o' & Ea & W' & R' & P' & E' & Am).
  destruct (conv_ok W) as [H _]. destruct (H P) as (s & Es & v & Ev & _ & _ & V). rewrite E in Es. inversion Es; subst s.
  destruct (conv_ok W') as [H' _]. destruct (H' P') as (s' & Es' & v' & Ev' & _ & Sv' & V'). rewrite E' in Es'. inversion Es'; subst s'.
  assert (Ci : count role_in (map flip_role sh) = count role_out sh) by (apply count_flip, flip_role_in).
  assert (Co : count role_out (map flip_role sh) = count role_in sh) by (apply count_flip, flip_role_out).
  rewrite Ci, Co in *. exists o', v, v'. repeat (split; auto). intros x y Bx By. rewrite V', V; auto.
Qed.
Print Assumptions C38_adjoint.

(** ~(~o) has the tensor of o. *)
Theorem C38_twice (S : scalar) (o : op S) sh :
  op_wf o -> reversible o -> op_pure o = Ok true -> op_shape o = Ok sh ->
  exists o' o'' v v'', adj o = Ok o' /\ adj o' = Ok o'' /\ op_shape o'' = Ok sh /\ tensor_pure o = Ok v /\ tensor_pure o'' = Ok v'' /\
    tval_shape v'' = tval_shape v /\
    forall x y, bits (count role_out sh) x -> bits (count role_in sh) y -> tval_value v'' (x ++ y) = tval_value v (x ++ y).
Proof.
  intros W R P E. destruct (C38_adjoint W R P E) as (o' & v & v' & Ea & W' & R' & P' & E' & Ev & Ev' & Sv' & V').
  destruct (C38_adjoint W' R' P' E') as (o'' & w & v'' & Ea' & _ & _ & _ & E'' & Ew & Ev'' & Sv'' & V'').
  rewrite Ev' in Ew. inversion Ew; subst w.
  assert (Ci : count role_in (map flip_role sh) = count role_out sh) by (apply count_flip, flip_role_in).
  assert (Co : count role_out (map flip_role sh) = count role_in sh) by (apply count_flip, flip_role_out).
  rewrite Ci, Co in *.
  destruct (conv_ok W) as [H _]. destruct (H P) as (s & Es & v0 & Ev0 & _ & Sv0 & _). rewrite E in Es. inversion Es; subst s.
  unfold tensor_pure in Ev. rewrite Ev in Ev0. inversion Ev0; subst v0.
  exists o', o'', v, v''. split; auto. split; auto. split; [rewrite E'', map_map; f_equal; rewrite <- (map_id sh) at 2; apply map_ext; intros; apply flip_role_flip|].
  split; auto. split; auto. split; [congruence|]. intros x y Bx By. rewrite V'', V', kconj_conj; auto.
Qed.
Print Assumptions C38_twice.

(** The operations of the adjoint of a circuit are the adjoints in reversed order: its amplitude is that of the reversed
    list of adjoint operations. *)
Theorem C38_reversed_order (S : scalar) (c l : circ (op S)) :
  op_wf (OCirc c) -> reversible (OCirc c) -> op_pure (OCirc c) = Ok true -> time_ordered c l ->
  exists c' Q v', adj (OCirc c) = Ok (OCirc c') /\ register c Q /\ register c' Q /\ tensor_pure (OCirc c') = Ok v' /\
    forall x y, bits (length (wires_out Q (acts_of l))) x -> bits (length (wires_in Q (acts_of l))) y ->
      tval_value v' (y ++ x) = amplitude Q (rev (map (@act_adj S) (acts_of l))) y x.
Proof.
  intros W R P T. destruct (C36_circuit W P T) as (Q & v & Rq & Ev & _ & _ & V). cbv zeta in V.
  destruct (conv_ok W) as [H _]. destruct (H P) as (sh & E & v0 & Ev0 & _ & Sv0 & V0).
  unfold tensor_pure in Ev. rewrite Ev in Ev0. inversion Ev0; subst v0. clear Ev0.
  destruct (C38_adjoint W R P E) as (o' & v1 & v' & Ea & W' & R' & P' & E' & Ev1 & Ev' & Sv' & V').
  unfold tensor_pure in Ev1. rewrite Ev in Ev1. inversion Ev1; subst v1. clear Ev1.
  inversion W as [| | | | | |? N Wg G|]; subst. assert (G' : gates_ok c) by exact G.
  destruct T as [Pl St]. destruct (any_order G' E Pl St) as (Q' & AQ & _ & Co & Ci & _ & Am).
  assert (Q' = Q) as -> by (apply (@register_unique S c c Q' Q); auto; [tauto|apply all_qubits_register; auto]).
  change (map (@gate_act S) l) with (acts_of l) in *.
  destruct (adj_circ_form W R P) as (c' & Ec & Hu). rewrite Ea in Ec. inversion Ec; subst o'.
  exists c', Q, v'. split; auto. split; auto. split; [destruct Rq as [Rq1 Rq2]; split; auto; intros q; rewrite Rq1; symmetry; apply Hu|].
  split; auto. intros x y Bx By. rewrite V' by (rewrite ?Co, ?Ci; auto). rewrite V by auto.
  symmetry. apply amplitude_adj; auto.
  - destruct (all_qubits_spec _ AQ) as (NQ & _). auto.
  - intros g Ig q Iq. apply Rq. unfold acts_of in Ig. apply in_map_iff in Ig as ([k g0] & <- & I0). exists k, g0. split; [|exact Iq].
    eapply Permutation_in; [apply Permutation_sym; exact Pl|exact I0].
Qed.
Print Assumptions C38_reversed_order.

Definition ex_adj : circ (op ZK) :=
  [ (NS "n", Gate 3%Z [qa] gN); (NS "w", Gate 4%Z [qb; qa] gW); (NS "s", Gate (-1)%Z [qa] (OState (S := ZK) true));
    (NS "u", Gate 9%Z [qb] (OSuper [(2%Z : ZK, gN); (3%Z : ZK, gX)])) ].
Lemma sa_gX : self_adjoint gX [RW [LI; LO]].
Proof.
  split; [reflexivity|]. intros x y Bx By. apply bits_S in Bx as (a & x' & -> & La & Bx). apply bits_S in By as (b & y' & -> & Lb & By).
  apply bits_0 in Bx, By. subst. destruct a as [|[|]], b as [|[|]]; try lia; reflexivity.
Qed.
Lemma rv_adj : reversible (OCirc ex_adj).
Proof.
  constructor; [nodup|]. intros k g [E|[E|[E|[E|[]]]]]; inversion E; subst; simpl; try (constructor; discriminate); try constructor.
  intros c a [E'|[E'|[]]]; inversion E'; subst; constructor; [discriminate|]. intros _. apply sa_gX.
Qed.
Lemma wf_adj : op_wf (OCirc ex_adj).
Proof.
  constructor; [nodup| |]; intros k g [E|[E|[E|[E|[]]]]]; inversion E; subst; simpl; auto; try constructor; auto; try nodup.
  apply (@wf_super ZK _ [0%nat] [0%nat]); [discriminate| | |]; intros c a [E'|[E'|[]]]; inversion E'; subst; auto.
  all: eexists; split; [reflexivity|split; reflexivity].
Qed.
Lemma run_value (r : res (tval ZK)) idx z : match r with Ok v => tval_value v idx | Err _ => 0%Z end = z -> z <> 0%Z ->
  exists v, r = Ok v /\ tval_value v idx = z.
Proof. destruct r as [v|e]; intros E N; [exists v; auto|congruence]. Qed.
Example C38_somewhere : op_wf (OCirc ex_adj) /\ reversible (OCirc ex_adj) /\ op_pure (OCirc ex_adj) = Ok true /\
  op_shape (OCirc ex_adj) = Ok [RW [LO]; RW [LI; LO]] /\ time_ordered ex_adj (in_order ex_adj) /\
  (exists v, tensor_pure (OCirc ex_adj) = Ok v /\ tval_value v [0; 1; 1] = 678%Z) /\
  (exists v', (do o <- adj (OCirc ex_adj); tensor_pure o) = Ok v' /\ tval_value v' [1; 0; 1] = 678%Z).
Proof.
  split; [apply wf_adj|]. split; [apply rv_adj|]. split; [vm_compute; reflexivity|]. split; [vm_compute; reflexivity|].
  split; [apply C34_time_order|]. split; (apply run_value; [vm_compute; reflexivity|discriminate]).
Qed.

(** Two operations without qubits at one time: one of them is missing in the adjoint. *)
Theorem C38_no_qubits_refuted :
  exists (c c' : circ (op ZK)) v v', op_wf (OCirc c) /\ op_pure (OCirc c) = Ok true /\ op_shape (OCirc c) = Ok [] /\
    adj (OCirc c) = Ok (OCirc c') /\ tensor_pure (OCirc c) = Ok v /\ tensor_pure (OCirc c') = Ok v' /\
    (tval_value v [] = 6%Z /\ tval_value v' [] = 3%Z).
Proof.
  exists [(NS "a", Gate 0%Z [] (gS 2)); (NS "b", Gate 0%Z [] (gS 3))]. do 3 eexists.
  split; [constructor; [nodup| |]; intros k g [E|[E|[]]]; inversion E; subst; simpl; auto; split; auto; nodup|].
  repeat (split; [vm_compute; reflexivity|]). split; vm_compute; reflexivity.
Qed.
Print Assumptions C38_no_qubits_refuted.

(** The adjoint of a controlled circuit is wrong: its operations are converted in the order in which they were inserted,
    which is the reverse of their order in time. *)
Definition cXZ : circ (op ZK) := [(NS "x", Gate 0%Z [qa] gX); (NS "z", Gate 1%Z [qa] gZ)].
Lemma wf_cXZ : op_wf (OCirc cXZ).
Proof. constructor; [nodup| |]; intros k g [E|[E|[]]]; inversion E; subst; simpl; auto; split; auto; nodup. Qed.
Lemma ct_cXZ : controllable (OCirc cXZ).
Proof.
  apply (@ct_circ ZK cXZ [RW [LI; LO]]); [discriminate| |vm_compute; reflexivity|reflexivity|].
  - repeat constructor; unfold earlier; simpl; lia.
  - intros k g [E|[E|[]]]; inversion E; subst; constructor; reflexivity.
Qed.
Theorem C38_controlled_circuit_refuted :
  exists (o o' : op ZK) v v', op_wf o /\ op_pure o = Ok true /\ op_shape o = Ok [RC; RW [LI; LO]] /\
    (exists c, controlled true (OCirc c) = Ok o /\ reversible (OCirc c) /\ controllable (OCirc c)) /\
    adj o = Ok o' /\ tensor_pure o = Ok v /\ tensor_pure o' = Ok v' /\
    tval_value v' ([1; 0] ++ [1; 1]) <> kconj (tval_value v ([1; 1] ++ [1; 0])).
Proof.
  exists (OCCirc true cXZ). do 3 eexists. split; [constructor; [apply wf_cXZ|vm_compute; reflexivity|apply ct_cXZ]|].
  split; [reflexivity|]. split; [vm_compute; reflexivity|]. split.
  - exists cXZ. split; [vm_compute; reflexivity|]. split; [|apply ct_cXZ]. constructor; [nodup|].
    intros k g [E|[E|[]]]; inversion E; subst; constructor; intros _; [apply sa_gX|].
    split; [reflexivity|]. intros x y Bx By. apply bits_S in Bx as (a & x' & -> & La & Bx). apply bits_S in By as (b & y' & -> & Lb & By).
    apply bits_0 in Bx, By. subst. destruct a as [|[|]], b as [|[|]]; try lia; reflexivity.
  - repeat (split; [vm_compute; reflexivity|]). vm_compute. discriminate.
Qed.
Print Assumptions C38_controlled_circuit_refuted.

(** ** C40: controlled operations *)

(** Controlled(o) has the control as its first wire; it is the identity on the other wires when the control bit is not
    [cond] and o when it is.  [controllable]: every wire runs through the operation; a circuit is not empty, its
    operations are controllable and were appended in order of time.  The result can be controlled again unless o is a
    circuit. *)
Theorem C40_controlled (S : scalar) (cond : bool) (o : op S) sh :
  op_wf o -> controllable o -> op_pure o = Ok true -> op_shape o = Ok sh ->
  exists o', controlled cond o = Ok o' /\ op_wf o' /\ op_pure o' = Ok true /\ op_shape o' = Ok (RC :: sh) /\
    tensor_ok (tensor_pure o') (RC :: sh) (when_amp cond (op_amp o)) /\
    ((forall c, o <> OCirc c) -> controllable o').
Proof. apply controlled_ok. Qed.
Print Assumptions C40_controlled.

(** In terms of tensors: *)
Theorem C40_tensor (S : scalar) (cond : bool) (o : op S) sh :
  op_wf o -> controllable o -> op_pure o = Ok true -> op_shape o = Ok sh ->
  exists o' v v', controlled cond o = Ok o' /\ tensor_pure o = Ok v /\ tensor_pure o' = Ok v' /\
    let n := length sh in
    tval_shape v = twos (n + n) /\ tval_shape v' = twos (1 + n + (1 + n)) /\
    forall b b' x y, (b < 2 -> b' < 2 -> bits n x -> bits n y ->
      tval_value v' ((b :: x) ++ b' :: y) =
      if b =? b' then if b =? bit cond then tval_value v (x ++ y) else kdelta (eqb x y) else k0)%nat.
Proof.
  intros W C P E. destruct (controlled_ok cond W C P E) as (o' & Ec & W' & P' & E' & (v' & Ev' & _ & Sv' & V') & _).
  destruct (conv_ok W) as [H _]. destruct (H P) as (s & Es & v & Ev & _ & Sv & V). rewrite E in Es. inversion Es; subst s.
  destruct (controllable_shape C) as (s & Es' & U). rewrite E in Es'. inversion Es'; subst s.
  assert (Co : count role_out sh = length sh) by (apply CircOp.unitary_all; auto using CircOp.unitary_out).
  assert (Ci : count role_in sh = length sh) by (apply CircOp.unitary_all; auto using CircOp.unitary_in).
  assert (Co' : count role_out (RC :: sh) = (1 + length sh)%nat) by (rewrite <- Co; reflexivity).
  assert (Ci' : count role_in (RC :: sh) = (1 + length sh)%nat) by (rewrite <- Ci; reflexivity).
  rewrite Co, Ci in *. rewrite Co', Ci' in *. exists o', v, v'. split; auto. split; auto. split; auto. cbv zeta. split; auto. split; auto.
  intros b b' x y Lb Lb' Bx By. rewrite V' by (apply bits_cons; auto). unfold when_amp.
  destruct (Nat.eqb b b') eqn:Eb; unfold kdelta at 1; [|apply kmul_0_l].
  rewrite kmul_1_l. destruct (Nat.eqb b (bit cond)); auto. rewrite V; auto.
Qed.
Print Assumptions C40_tensor.

Example C40_somewhere : op_wf (OCirc cXZ) /\ controllable (OCirc cXZ) /\ op_pure (OCirc cXZ) = Ok true /\ op_shape (OCirc cXZ) = Ok [RW [LI; LO]] /\
  op_wf gW /\ controllable gW /\ op_pure gW = Ok true /\ op_shape gW = Ok [RW [LI; LO]; RW [LI; LO]] /\
  exists v, (do o <- controlled false (OCirc cXZ); tensor_pure o) = Ok v /\
    map (tval_value v) [[0; 1; 0; 0]; [0; 0; 0; 1]; [1; 1; 1; 1]; [1; 1; 1; 0]] = [-1; 1; 1; 0]%Z.
Proof.
  split; [apply wf_cXZ|]. split; [apply ct_cXZ|]. do 2 (split; [vm_compute; reflexivity|]).
  split; [auto|]. split; [constructor; reflexivity|]. do 2 (split; [vm_compute; reflexivity|]).
  eexists. split; [vm_compute; reflexivity|]. vm_compute; reflexivity.
Qed.

(** The condition on the order of insertion cannot be dropped: *)
Theorem C40_insertion_order_refuted :
  exists (c : circ (op ZK)) o v v', op_wf (OCirc c) /\ op_pure (OCirc c) = Ok true /\ op_shape (OCirc c) = Ok [RW [LI; LO]] /\
    controlled true (OCirc c) = Ok o /\ tensor_pure (OCirc c) = Ok v /\ tensor_pure o = Ok v' /\
    tval_value v' ([1; 0] ++ [1; 1]) <> tval_value v ([0] ++ [1]).
Proof.
  exists [(NS "z", Gate 1%Z [qa] gZ); (NS "x", Gate 0%Z [qa] gX)]. do 3 eexists.
  split; [constructor; [nodup| |]; intros k g [E|[E|[]]]; inversion E; subst; simpl; auto; split; auto; nodup|].
  repeat (split; [vm_compute; reflexivity|]). vm_compute. discriminate.
Qed.
Print Assumptions C40_insertion_order_refuted.
(** ... nor that a circuit is not empty: the tensor has no bonds although the operation has one wire. *)
Theorem C40_empty_refuted :
  exists (o : op ZK) v, controlled true (OCirc []) = Ok o /\ op_shape o = Ok [RC] /\ tensor_pure o = Ok v /\ tval_shape v = Some [].
Proof. do 2 eexists. repeat (split; [vm_compute; reflexivity|]). vm_compute; reflexivity. Qed.
Print Assumptions C40_empty_refuted.
(** ... and a controlled circuit cannot be controlled again. *)
Theorem C40_twice_refuted :
  exists (c : circ (op ZK)) o, op_wf (OCirc c) /\ controllable (OCirc c) /\ controlled true (OCirc c) = Ok o /\ controlled true o = Err AttributeError.
Proof. exists cXZ, (OCCirc true cXZ). split; [apply wf_cXZ|]. split; [apply ct_cXZ|]. split; reflexivity. Qed.
Print Assumptions C40_twice_refuted.

(** ** C45: parallel composition a * b *)
Theorem C45_parallel (S : scalar) (a b : op S) sa sb :
  op_wf a -> op_wf b -> op_shape a = Ok sa -> op_shape b = Ok sb -> op_pure a = Ok true -> op_pure b = Ok true ->
  sa ++ sb <> [] -> (forall r, In r (sa ++ sb) -> alternating (role_word r)) ->
  exists r v va vb, op_mul a b = Ok r /\ op_wf r /\ op_pure r = Ok true /\
    tensor_pure r = Ok v /\ tensor_pure a = Ok va /\ tensor_pure b = Ok vb /\
    tval_shape v = twos ((count role_out sa + count role_out sb) + (count role_in sa + count role_in sb)) /\
    forall o1 o2 i1 i2, bits (count role_out sa) o1 -> bits (count role_out sb) o2 -> bits (count role_in sa) i1 -> bits (count role_in sb) i2 ->
      tval_value v ((o1 ++ o2) ++ i1 ++ i2) = kmul (tval_value va (o1 ++ i1)) (tval_value vb (o2 ++ i2)).
Proof.
  intros Wa Wb Ea Eb Pa Pb Ne Al.
  destruct (mul_ok Wa Wb Ea Eb Pa Pb Ne Al) as (r & sh & v & Em & Wr & Pr & Er & _ & Co & Ci & Ev & _ & Sv & V).
  destruct (conv_ok Wa) as [Ha _]. destruct (Ha Pa) as (sa' & Ea' & va & Eva & _ & _ & Va).
  rewrite Ea in Ea'. inversion Ea'; subst sa'. clear Ea'.
  destruct (conv_ok Wb) as [Hb _]. destruct (Hb Pb) as (sb' & Eb' & vb & Evb & _ & _ & Vb).
  rewrite Eb in Eb'. inversion Eb'; subst sb'. clear Eb'.
  exists r, v, va, vb. rewrite Co, Ci in Sv. repeat (split; auto). intros o1 o2 i1 i2 B1 B2 B3 B4. rewrite V, Va, Vb; auto.
Qed.
Print Assumptions C45_parallel.
Example C45_somewhere : op_wf gW /\ op_wf (OCirc ex_circ) /\ op_shape gW = Ok [RW [LI; LO]; RW [LI; LO]] /\
  op_shape (OCirc ex_circ) = Ok [RW [LO]; RW [LI]] /\ op_pure gW = Ok true /\ op_pure (OCirc ex_circ) = Ok true /\
  (forall r, In r ([RW [LI; LO]; RW [LI; LO]] ++ [RW [LO]; RW [LI]]) -> alternating (role_word r)) /\
  exists v, (do r <- op_mul gW (OCirc ex_circ); tensor_pure r) = Ok v /\ tval_value v [1; 0; 1; 1; 1; 0] = (7 * 21)%Z.
Proof.
  split; [auto|]. split; [apply ex_wf|]. do 4 (split; [vm_compute; reflexivity|]).
  split; [|apply run_value; [vm_compute; reflexivity|discriminate]].
  intros r I. simpl in I. repeat (destruct I as [<-|I]; [simpl; repeat split; auto; discriminate|]); contradiction.
Qed.
(** Two operations without qubits get the same name, and the first is lost. *)
Theorem C45_no_qubits_refuted :
  exists (r : op ZK) v, op_mul (gS 2) (gS 3) = Ok r /\ tensor_pure r = Ok v /\ tval_value v [] = 3%Z.
Proof. do 2 eexists. repeat (split; [vm_compute; reflexivity|]). vm_compute; reflexivity. Qed.
Print Assumptions C45_no_qubits_refuted.
