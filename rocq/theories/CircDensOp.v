(** The density tensor of an operation. *)
From Coq Require Import Sorting.Permutation Sorting.Sorted.
From Verif Require Import Base Scalar NetSpec Sums NetAlg ModelArray ModelTN TNInv TNOps TNSpec TNValue TNExact TNEdit
  TNEdit2 ModelVal ModelOps OpsSpec OpsProofs OpsValue ModelContract ContractExec NameOrder CircSpec CircSum CircOrder ModelCircuit CircSem CircShape
  CircWire CircStep CircNet CircCtrl CircWhen CircOp CircMain CircBuild DensSpec CircDens CircDensNet.
Set Implicit Arguments.

Section DOp.
  Variable S : scalar.
  Notation tval := (tval S).
  Notation op := (op S).
  Notation env := (env (A := name)).
  Local Open Scope K_scope.
  Add Ring Kring_dop : (kring S).

  Lemma two_new (l : list name) : map two_edge l = new_edges l (map Some (repeat 2%nat (length l))).
  Proof. unfold new_edges. induction l as [|x l IH]; simpl; f_equal; auto. Qed.
  Lemma fresh_all (all l : list name) : NoDup l -> (forall x, In x l -> ~ In x all) -> fresh_of all l = l.
  Proof.
    intros N D. assert (E : filter (fun e => negb (mem e all)) l = l).
    { clear N. induction l as [|x l IH]; simpl; auto.
      assert (M : mem x all = false) by (apply mem_false, D; simpl; auto). rewrite M. simpl. f_equal. apply IH. intros y Iy; apply D; simpl; auto. }
    rewrite fresh_of_filter; rewrite E; auto.
  Qed.

  Lemma pure_density_spec (tp : tval) k : complete tp -> tval_shape tp = twos k ->
    exists v, pure_density tp = Ok v /\ complete v /\ tval_shape v = twos (k + k) /\
      forall x y, bits k x -> bits k y -> tval_value v (x ++ y) = tval_value tp x * kconj (tval_value tp y).
  Proof.
    intros C Sh. destruct (complete_conj C) as (cj & Ec & Cc). destruct (v_conj_value _ Ec) as [Sc Vc].
    assert (Lk : length (repeat (Some 2%nat) k) = k) by apply repeat_length.
    unfold pure_density. rewrite Sh. unfold twos at 1. cbn [bind]. rewrite Ec. cbn [bind]. rewrite Lk.
    set (l1 := range_names k). set (l2 := map (fun i => NI (Z.of_nat i)) (seq k k)).
    assert (L1 : length l1 = k) by apply range_length.
    assert (L2 : length l2 = k) by (unfold l2; rewrite map_length, seq_length; auto).
    assert (E12 : range_names (2 * k) = l1 ++ l2).
    { unfold l1, l2, range_names. rewrite <- map_app. f_equal. rewrite <- seq_app. f_equal. lia. }
    assert (ND : NoDup (l1 ++ l2)) by (rewrite <- E12; apply range_NoDup).
    assert (ND' := ND). apply NoDup_app_iff in ND' as (N1 & N2 & N12).
    assert (NNl : ~ In NN (l1 ++ l2)).
    { rewrite <- E12. unfold range_names. intros X. apply in_map_iff in X as (i & X & _). discriminate. }
    destruct (@add_node_two S (NS "TP") tp empty_tn l1) as (K1 & D1 & A1); simpl; auto.
    { intros X; apply NNl, in_app_iff; auto. }
    { tauto. }
    { rewrite L1; auto. }
    rewrite fresh_all in * by (auto; simpl; tauto).
    set (n1 := plus_node' _ (NS "TP") _ _ _ _) in A1.
    destruct (@add_node_two S (NS "~TP") cj n1 l2) as (K2 & D2 & A2); auto.
    { simpl. intros [X|[]]. discriminate. }
    { intros X; apply NNl, in_app_iff; auto. }
    { rewrite L2, Sc; auto. }
    assert (Ek1 : keys (edges n1) = l1) by (unfold n1; simpl; apply keys_two).
    assert (F2 : fresh_of (keys (edges n1)) l2 = l2).
    { apply fresh_all; auto. rewrite Ek1. intros x I J; apply (N12 x); auto. }
    rewrite F2 in *.
    set (n2 := plus_node' _ (NS "~TP") _ _ _ _) in A2.
    assert (Eg : edges n2 = new_edges (l1 ++ l2) (map Some (repeat 2%nat (k + k)))).
    { unfold n2, n1. cbn [edges plus_node' with_edges empty_tn app]. rewrite <- map_app, two_new. do 3 f_equal. rewrite app_length; lia. }
    exists (VNet (with_opens n2 (range_names (2 * k)))). split; [|split; [|split]].
    - unfold build. rewrite (@mbind_eq _ _ _ _ _ _ n1 (NS "TP")) by exact A1.
      rewrite (@mbind_eq _ _ _ _ _ n1 n2 (NS "~TP")) by exact A2. reflexivity.
    - assert (H : complete (VNet n2)).
      { assert (H1 : complete (VNet n1)) by (apply complete_plus; auto; constructor; intros ? ? []).
        apply complete_plus; auto. inversion H1 as [|n' H' E| |]. constructor. exact H'. }
      inversion H as [|n' H' E| |]. constructor. exact H'.
    - cbn [tval_shape]. unfold twos. f_equal. cbn [opens with_opens].
      assert (Dm : forall l, incl l (l1 ++ l2) -> map (edge_dim (with_opens n2 (range_names (2 * k)))) l = repeat (Some 2%nat) (length l)).
      { induction l as [|e l IH]; intros I; simpl; auto. f_equal; [|apply IH; intros x Ix; apply I; simpl; auto].
        apply D2. apply K2. rewrite Ek1. apply in_app_iff, I. simpl; auto. }
      rewrite Dm by (rewrite E12; apply incl_refl). rewrite range_length. f_equal. lia.
    - intros x y Bx By. cbn [tval_value].
      set (g := fun z => tval_value tp (firstn k z) * kconj (tval_value tp (skipn k z))).
      transitivity (g (x ++ y)).
      2:{ unfold g. destruct Bx as [Lx _]. rewrite firstn_app_len, skipn_app_len by auto. auto. }
      apply (@value_group S (with_opens n2 (range_names (2 * k))) (l1 ++ l2) (repeat 2%nat (k + k))); auto.
      + rewrite repeat_length, app_length; lia.
      + intros s. change (terms_prod (with_opens n2 (range_names (2 * k))) s) with (terms_prod n2 s).
        unfold n2. rewrite terms_plus. change (terms_prod (with_edges n1 (edges n1 ++ map two_edge l2)) s) with (terms_prod n1 s).
        unfold n1. rewrite terms_plus. unfold g. rewrite map_app, firstn_app_len, skipn_app_len by (rewrite map_length; auto).
        rewrite Vc. unfold terms_prod. simpl. ring.
      + apply in_shape_bits, bits_app; auto.
  Qed.

  Lemma pure_density_ok (r : res tval) sh (a : ampl S) : tensor_ok r sh a ->
    density_ok (do v <- r; pure_density v) sh (of_amp a).
  Proof.
    intros (v & -> & C & Sh & V). cbn [bind].
    destruct (pure_density_spec C Sh) as (w & E & Cw & Sw & Vw). exists w. split; auto. split; auto. split; auto.
    intros o i o' i' Bo Bi Bo' Bi'. rewrite app_assoc. rewrite Vw by (apply bits_app; auto).
    unfold of_amp. rewrite !V; auto.
  Qed.

  (** ** Circuits *)
  Definition dspec (a : op) : list role * chan S := (shape_or a, op_dens a).
  Lemma dens_circ (c : circ op) : dens (OCirc c) = dens_net (map_circ (fun a => info_of a (dens a)) c).
  Proof. simpl. f_equal. apply map_ext. intros [k [t q a]]; reflexivity. Qed.
  Lemma opdens_circ (c : circ op) : op_dens (OCirc c) = circ_chan (map_circ dspec c).
  Proof. simpl. f_equal. apply map_ext. intros [k [t q a]]; reflexivity. Qed.

  (** facts that depend on the shapes only *)
  Lemma words_history (gs hs : list (act S)) : Forall2 (fun g h => on g = on h /\ words g = words h) gs hs ->
    forall q, history gs q = history hs q.
  Proof.
    intros F q. induction F as [|g h gs hs [E1 E2] F IH]; auto. rewrite !history_cons, IH. f_equal.
    unfold word_at. rewrite E1, E2; auto.
  Qed.

  Lemma dens_circ_ok (c : circ op) sh : NoDup (keys c) -> gates_ok c -> op_shape (OCirc c) = Ok sh ->
    (forall k g, In (k, g) c -> density_ok (dens (g_op g)) (shape_or (g_op g)) (op_dens (g_op g))) ->
    density_ok (dens (OCirc c)) sh (op_dens (OCirc c)).
  Proof.
    intros N G Es IH. destruct (circ_facts G Es) as (Q & AQ & Ap & Al & Gk & _ & Co & Ci & Am).
    set (sk := map (@skel S) (map (xcact dspec) (in_order c))).
    assert (Same : Forall2 (fun g h => on g = on h /\ words g = words h) sk (circ_acts (map_circ (@spec_of S) c))).
    { unfold sk, circ_acts. rewrite in_order_map. unfold map_circ. rewrite !map_map. clear. generalize (in_order c) as l.
      induction l as [|[k [t q a]] l IH]; simpl; constructor; auto. }
    assert (Hh := words_history Same).
    assert (Wo : wires_out Q sk = wires_out Q (circ_acts (map_circ (@spec_of S) c))).
    { unfold wires_out. apply filter_ext. intros q. rewrite Hh; auto. }
    assert (Wi : wires_in Q sk = wires_in Q (circ_acts (map_circ (@spec_of S) c))).
    { unfold wires_in. apply filter_ext. intros q. rewrite Hh; auto. }
    rewrite opdens_circ, dens_circ. unfold density_ok, circ_chan. rewrite all_qubits_map, AQ.
    rewrite Co, Ci, <- Wo, <- Wi.
    destruct (@dens_net_spec S op (fun a => info_of a (dens a)) dspec c Q) as (v & Ev & Cv & Sv & Vv); auto.
    - apply Forall_forall. intros [k g] I. destruct (G k g I) as [Nq L]. apply op_len_shape in L as [L1 L2].
      split; [|split; auto]. split; simpl; auto. apply (IH k); auto.
    - unfold apart_ok in *. clear -Ap. unfold tacts, map_circ in *. rewrite map_map in *.
      induction c as [|[k [t q a]] c IH]; simpl in *; [constructor|]. inversion Ap; subst. constructor; auto.
      rewrite Forall_map in *. eapply Forall_impl; [|exact H1]. intros [k' [t' q' a']]. simpl. auto.
    - intros q. rewrite <- (Hh q) in Al || idtac. specialize (Al q). rewrite <- Hh in Al. unfold sk in Al. rewrite skel_acts in Al.
      unfold circ_acts. rewrite in_order_map. unfold tacts in Al. rewrite map_map in Al. exact Al.
    - exists v. split; [exact Ev|]. split; auto. split; auto.
      intros o i o' i' Bo Bi Bo' Bi'. rewrite Vv by auto. unfold xcact.
      rewrite in_order_map. unfold map_circ. rewrite !map_map. reflexivity.
  Qed.

  Theorem dens_ok (o : op) : op_wf o -> no_super o -> forall sh, op_shape o = Ok sh -> density_ok (tensor_density o) sh (op_dens o).
  Proof.
    unfold tensor_density. intros W Ns. induction Ns as [sa sh d|sa sh d|b|b|sh d|b c|c NsI IH]; intros s Es.
    - apply pure_density_ok. destruct (proj1 (conv_ok W) eq_refl) as (s' & E' & T). congruence.
    - apply pure_density_ok. destruct (proj1 (conv_ok W) eq_refl) as (s' & E' & T). congruence.
    - apply pure_density_ok. destruct (proj1 (conv_ok W) eq_refl) as (s' & E' & T). congruence.
    - apply pure_density_ok. destruct (proj1 (conv_ok W) eq_refl) as (s' & E' & T). congruence.
    - simpl in Es. inversion Es; subst s. inversion W as [| | | |? ? C Nc Sd| | |]; subst. exists d. split; auto. split; auto.
      assert (Lo := count_out sh). assert (Li := count_in sh). split; auto.
      rewrite Lo, Li, Nc, Sd. f_equal. lia.
    - destruct (proj1 (conv_ok W) eq_refl) as (s' & E' & T).
      change (dens (OCCirc b c)) with (do v <- conv (OCCirc b c) None; pure_density v).
      change (op_dens (OCCirc b c)) with (of_amp (op_amp (OCCirc b c))). apply pure_density_ok. congruence.
    - inversion W as [| | | | | |? N Wg G|]; subst. apply dens_circ_ok; auto.
      intros k g I. apply (IH k g I). apply (Wg k); auto. destruct (G k g I) as [_ L]. apply op_len_shape in L. tauto.
  Qed.
End DOp.
