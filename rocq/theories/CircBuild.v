(** Building circuits: append, copy, concatenation. *)
From Coq Require Import Sorting.Permutation Sorting.Sorted.
From Verif Require Import Base Scalar NetSpec Sums NetAlg ModelArray ModelTN TNInv TNOps TNSpec TNValue TNExact TNEdit
  TNEdit2 ModelVal ModelOps OpsSpec OpsProofs OpsValue ModelContract ContractExec NameOrder CircSpec CircSum CircOrder
  ModelCircuit CircSem CircShape CircWire CircStep CircNet CircCtrl CircWhen CircOp CircMain.
Set Implicit Arguments.

Section Build.
  Variable S : scalar.
  Notation op := (op S).
  Implicit Types c d : circ op.

  Lemma max_time_le c p : In p c -> (g_time (snd p) <= max_time c)%Z.
  Proof.
    assert (H : forall l m, (m <= fold_left (fun (m : Z) (q : name * gate op) => Z.max m (g_time (snd q))) l m)%Z /\
                forall q, In q l -> (g_time (snd q) <= fold_left (fun (m : Z) (q : name * gate op) => Z.max m (g_time (snd q))) l m)%Z).
    { induction l as [|x l IH]; intros m; simpl; [split; [lia|intros ? []]|]. destruct (IH (Z.max m (g_time (snd x)))) as [H1 H2].
      split; [lia|]. intros q [<-|I]; [lia|auto]. }
    destruct c as [|x c]; [intros []|]. simpl. intros [<-|I]; [apply (proj1 (H c _))|apply (proj2 (H c _)); auto].
  Qed.

  (** the time and the name that append gives *)
  Definition slot (time : option Z) c : Z := match time with Some t => t | None => (1 + max_time c)%Z end.
  Definition label (nm : option name) (t : Z) (qs : list name) : name := match nm with Some k => k | None => NT [NI t; NT qs] end.
  Lemma c_append_ok (o : op) qs time nm c c' : c_append o qs time nm c = Ok c' <->
    NoDup qs /\ op_len o = Ok (length qs) /\ c' = set (label nm (slot time c) qs) (Gate (slot time c) qs o) c.
  Proof.
    unfold c_append, append, slot, label. destruct (nodupb qs) eqn:N; cbn [negb].
    - apply nodupb_NoDup in N. destruct (op_len o) as [n|]; cbn [bind]; [|split; [discriminate|intros (_ & E & _); discriminate]].
      destruct (Nat.eqb_spec (length qs) n) as [L|L]; cbn [negb].
      + split; [intros E; inversion E; subst; auto|intros (_ & _ & ->); auto].
      + split; [discriminate|intros (_ & E & _); congruence].
    - split; [discriminate|]. intros (X & _). apply nodupb_NoDup in X. congruence.
  Qed.
  Lemma set_In {B} (k : name) (v : B) l x w : In (x, w) (set k v l) -> (x, w) = (k, v) \/ In (x, w) l.
  Proof.
    induction l as [|[y u] l IH]; simpl; [intros [E|[]]; auto|]. destruct (eqb_spec k y) as [->|].
    - simpl. intros [E|I]; auto.
    - simpl. intros [E|I]; auto. destruct (IH I); auto.
  Qed.
  Lemma append_wf (o : op) qs time nm c c' : op_wf (OCirc c) -> op_wf o -> c_append o qs time nm c = Ok c' -> op_wf (OCirc c').
  Proof.
    intros W Wo E. apply c_append_ok in E as (N & L & ->). inversion W as [| | | | | |? Nk Wk G|]; subst. constructor.
    - apply keys_set_NoDup; auto.
    - intros k g I. apply set_In in I as [E|I]; [inversion E; subst; auto|eauto].
    - intros k g I. apply set_In in I as [E|I]; [inversion E; subst; auto|eauto].
  Qed.
  Lemma wf_empty : op_wf (OCirc (S := S) []).
  Proof. constructor; [constructor|intros ? ? []|intros ? ? []]. Qed.

  Lemma copy_ok c : NoDup (keys c) -> gates_ok c -> c_copy c [] = Ok c.
  Proof.
    intros N G. enough (H : forall l acc, NoDup (keys (acc ++ l)) -> gates_ok l -> c_copy l acc = Ok (acc ++ l)) by (apply (H c []); auto).
    clear. induction l as [|[k g] l IH]; intros acc N G; simpl; [rewrite app_nil_r; auto|].
    destruct (G k g) as [Nq L]; [simpl; auto|].
    assert (E : c_append (g_op g) (g_qubits g) (Some (g_time g)) (Some k) acc = Ok (acc ++ [(k, g)])).
    { apply c_append_ok. split; auto. split; auto. simpl. rewrite set_fresh; [destruct g; auto|].
      rewrite keys_app in N. simpl in N. apply NoDup_remove_2 in N. rewrite in_app_iff in N. tauto. }
    rewrite E. cbn [bind]. rewrite IH.
    - rewrite <- app_assoc; auto.
    - rewrite <- app_assoc. auto.
    - intros k' g' I. apply (G k' g'). simpl; auto.
  Qed.

  (** no gate has the name that append would give to a later gate *)
  Definition late_names_free c : Prop := forall t qs, (max_time c < t)%Z -> ~ In (NT [NI t; NT qs]) (keys c).
  Fixpoint stacked_after (t : Z) (l : circ op) : circ op :=
    match l with
    | [] => []
    | (_, g) :: r => (NT [NI t; NT (g_qubits g)], Gate t (g_qubits g) (g_op g)) :: stacked_after (t + 1) r
    end.
  Lemma late_snoc c t qs (o : op) : late_names_free c -> t = (1 + max_time c)%Z -> late_names_free (c ++ [(NT [NI t; NT qs], Gate t qs o)]).
  Proof.
    intros F E t' qs' L. rewrite keys_app, in_app_iff. rewrite max_time_snoc in L. simpl in L.
    intros [I|[I|[]]].
    - apply (F t' qs'); auto. destruct c; simpl in *; lia.
    - assert (I' : NT [NI t; NT qs] = NT [NI t'; NT qs']) by exact I. assert (t = t') by congruence. destruct c; lia.
  Qed.
  Lemma extend_ok : forall l c, gates_ok l -> late_names_free c -> c_extend l c = Ok (c ++ stacked_after (1 + max_time c) l).
  Proof.
    induction l as [|[k g] l IH]; intros c G F; cbn [c_extend stacked_after]; [rewrite app_nil_r; auto|].
    destruct (G k g) as [Nq L]; [simpl; auto|]. set (t := (1 + max_time c)%Z).
    assert (E : c_append (g_op g) (g_qubits g) None None c = Ok (c ++ [(NT [NI t; NT (g_qubits g)], Gate t (g_qubits g) (g_op g))])).
    { apply c_append_ok. split; auto. split; auto. unfold slot, label. fold t. rewrite set_fresh; auto. apply F. unfold t; lia. }
    rewrite E. cbn [bind]. rewrite IH.
    - rewrite <- app_assoc. cbn [app]. rewrite max_time_snoc.
      assert (Et : (1 + match c with [] => t | _ => Z.max (max_time c) t end = t + 1)%Z) by (destruct c; unfold t; lia).
      simpl g_time. rewrite Et. reflexivity.
    - intros k' g' I. apply (G k' g'). simpl; auto.
    - apply late_snoc; auto.
  Qed.
  Lemma stacked_In t l k g : In (k, g) (stacked_after t l) -> exists k0 g0, In (k0, g0) l /\ g_qubits g = g_qubits g0 /\ g_op g = g_op g0 /\
    (t <= g_time g)%Z /\ k = NT [NI (g_time g); NT (g_qubits g)].
  Proof.
    revert t; induction l as [|[k0 g0] l IH]; intros t I; simpl in I; [tauto|]. destruct I as [E|I].
    - inversion E; subst. exists k0, g0. simpl. repeat split; auto; lia.
    - apply IH in I as (k1 & g1 & I & E1 & E2 & L & E3). exists k1, g1. simpl. repeat split; auto; lia.
  Qed.
  Lemma stacked_sorted t l : StronglySorted (fun p q => g_time (snd p) < g_time (snd q))%Z (stacked_after t l).
  Proof.
    revert t; induction l as [|[k0 g0] l IH]; intros t; simpl; constructor; auto. apply Forall_forall. intros [k g] I.
    apply stacked_In in I as (_ & _ & _ & _ & _ & L & _). simpl. lia.
  Qed.
  Lemma stacked_acts t l : map (fun p => gact (snd p)) (map_circ (@spec_of S) (stacked_after t l)) = map (fun p => gact (snd p)) (map_circ (@spec_of S) l).
  Proof. revert t; induction l as [|[k0 g0] l IH]; intros t; simpl; auto. f_equal. apply IH. Qed.

  (** the amplitudes of a circuit, for any order of its gates that respects time *)
  Definition gate_act (p : name * gate op) : act S := gact (map_gate (@spec_of S) (snd p)).
  Lemma gate_acts c : map gate_act c = map (fun p => gact (snd p)) (map_circ (@spec_of S) c).
  Proof. unfold map_circ. rewrite map_map. auto. Qed.
  Lemma sorted_map c : StronglySorted (@earlier S) c -> StronglySorted (@gate_le _) (map_circ (@spec_of S) c).
  Proof. induction 1 as [|p l S1 IH F]; simpl; constructor; auto. unfold map_circ. rewrite Forall_map. exact F. Qed.
  Lemma any_history c l q : apart_ok (map_circ (@spec_of S) c) -> Permutation c l -> StronglySorted (@earlier S) l ->
    history (circ_acts (map_circ (@spec_of S) c)) q = history (map gate_act l) q.
  Proof.
    intros A P Ss. rewrite gate_acts. apply order_history; auto; [unfold map_circ; apply Permutation_map; auto|apply sorted_map; auto].
  Qed.
  Lemma any_order c sh l : gates_ok c -> op_shape (OCirc c) = Ok sh -> Permutation c l -> StronglySorted (@earlier S) l ->
    exists Q, all_qubits c = Ok Q /\ (forall q, alternating (history (map gate_act l) q)) /\
      count role_out sh = length (wires_out Q (map gate_act l)) /\ count role_in sh = length (wires_in Q (map gate_act l)) /\
      sh = map (fun q => RW (truncate (history (map gate_act l) q))) Q /\
      forall o i, bits (count role_out sh) o -> op_amp (OCirc c) o i = amplitude Q (map gate_act l) o i.
  Proof.
    intros G E P Ss. assert (G0 := G). assert (E0 := E). destruct (circ_facts G E) as (Q & AQ & Ap & Al & Gk & _ & Co & Ci & Am).
    assert (H : forall q, history (circ_acts (map_circ (@spec_of S) c)) q = history (map gate_act l) q).
    { intros q. apply any_history; auto. }
    exists Q. split; auto. split; [intros q; rewrite <- H; apply Al|].
    assert (Wo : wires_out Q (map gate_act l) = wires_out Q (circ_acts (map_circ (@spec_of S) c))).
    { unfold wires_out. apply filter_ext. intros q. rewrite H; auto. }
    assert (Wi : wires_in Q (map gate_act l) = wires_in Q (circ_acts (map_circ (@spec_of S) c))).
    { unfold wires_in. apply filter_ext. intros q. rewrite H; auto. }
    rewrite Wo, Wi. split; auto. split; auto. split.
    - destruct (gates_ok_shapes G0) as [Es Gk']. rewrite shape_circ, Es in E0. pose proof (circ_shape_spec Gk') as Sp.
      rewrite E0 in Sp. destruct Sp as (_ & _ & Q' & AQ' & Esh). rewrite all_qubits_map in AQ'. rewrite AQ in AQ'. inversion AQ'; subst Q'.
      rewrite Esh. apply map_ext. intros q. rewrite H; auto.
    - intros o i Bo. rewrite Am, gate_acts. destruct (all_qubits_spec _ AQ) as (NQ & _ & MQ). apply order_amplitude; auto.
      + unfold map_circ. apply Permutation_map; auto.
      + apply sorted_map; auto.
      + intros p Ip q Iq. unfold map_circ in Ip. apply in_map_iff in Ip as ([k g] & <- & I). simpl in Iq.
        apply MQ, qubits_In. exists (k, g); auto.
      + rewrite <- Co; auto.
  Qed.
  (** a circuit has a shape when no wire is used twice at a time, uses alternate and names compare *)
  Lemma shape_exists c l Q : gates_ok c -> apart_ok (map_circ (@spec_of S) c) -> Permutation c l -> StronglySorted (@earlier S) l ->
    (forall q, alternating (history (map gate_act l) q)) -> all_qubits c = Ok Q -> exists sh, op_shape (OCirc c) = Ok sh.
  Proof.
    intros G A P Ss Al AQ. destruct (gates_ok_shapes G) as [Es Gk]. rewrite shape_circ, Es. pose proof (circ_shape_spec Gk) as Sp.
    assert (Al' : alt_ok (map_circ (@spec_of S) c)) by (intros q; rewrite (any_history q A P Ss); auto).
    destruct (circ_shape (shapes (map_circ (@spec_of S) c))) as [sh|[]]; try tauto; eauto.
    rewrite all_qubits_map in Sp. congruence.
  Qed.

  (** ** concatenation *)
  Lemma join_sorted c l : StronglySorted (@earlier S) (in_order c ++ stacked_after (1 + max_time c) l).
  Proof.
    apply sorted_app; [apply in_order_sorted| |].
    - pose proof (stacked_sorted (1 + max_time c) l) as H. induction H as [|p r S1 IH F]; constructor; auto.
      eapply Forall_impl; [|exact F]. unfold earlier. intros a La. apply Z.lt_le_incl. exact La.
    - intros a [k g] Ia Ib. apply stacked_In in Ib as (_ & _ & _ & _ & _ & L & _).
      apply (Permutation_in a (Permutation_sym (in_order_perm c))) in Ia. apply max_time_le in Ia. unfold earlier. cbn [snd]. eapply Z.le_trans; [exact Ia|lia].
  Qed.
  Lemma join_perm c l : Permutation (c ++ stacked_after (1 + max_time c) l) (in_order c ++ stacked_after (1 + max_time c) l).
  Proof. apply Permutation_app_tail, in_order_perm. Qed.
  Lemma join_acts c l : map gate_act (in_order c ++ stacked_after (1 + max_time c) l) = map gate_act (in_order c) ++ map gate_act l.
  Proof. rewrite map_app. f_equal. rewrite gate_acts, stacked_acts, <- gate_acts. auto. Qed.
  Lemma FOP_app {X} (R : X -> X -> Prop) l m : ForallOrdPairs R l -> ForallOrdPairs R m -> (forall a b, In a l -> In b m -> R a b) ->
    ForallOrdPairs R (l ++ m).
  Proof.
    intros F G H. induction F as [|x l Fx F IH]; simpl; auto. constructor.
    - apply Forall_app. split; auto. apply Forall_forall. intros b Ib. apply H; simpl; auto.
    - apply IH. intros a b Ia Ib. apply H; simpl; auto.
  Qed.
  Lemma join_apart c l : apart_ok (map_circ (@spec_of S) c) -> apart_ok (map_circ (@spec_of S) (c ++ stacked_after (1 + max_time c) l)).
  Proof.
    intros A. unfold apart_ok, tacts, map_circ. rewrite !map_app. apply FOP_app; [exact A| |].
    - pose proof (stacked_sorted (1 + max_time c) l) as H. induction H as [|p r S1 IH F]; simpl; constructor; auto.
      rewrite !Forall_map. eapply Forall_impl; [|exact F]. intros a La E. cbn in E, La. rewrite E in La. destruct (Z.lt_irrefl _ La).
    - intros a b Ia Ib E. exfalso. apply in_map_iff in Ia as (x & <- & Ix). apply in_map_iff in Ix as (y & <- & Iy).
      apply in_map_iff in Ib as (x & <- & Ix). apply in_map_iff in Ix as ([k g] & <- & Ig).
      apply stacked_In in Ig as (_ & _ & _ & _ & _ & L & _). apply max_time_le in Iy. cbn [fst snd tact map_gate g_time] in E. unfold timed in E. rewrite E in Iy. lia.
  Qed.
  Lemma gates_app c d : gates_ok c -> gates_ok d -> gates_ok (c ++ d).
  Proof. intros G H k g I. apply in_app_iff in I as [I|I]; eauto. Qed.
  Lemma gates_stacked t l : gates_ok l -> gates_ok (stacked_after t l).
  Proof. intros G k g I. apply stacked_In in I as (k0 & g0 & I & E1 & E2 & _). rewrite E1, E2. eauto. Qed.
  Lemma gates_order c : gates_ok c -> gates_ok (in_order c).
  Proof. intros G k g I. apply (G k g). eapply Permutation_in; [apply Permutation_sym, in_order_perm|exact I]. Qed.
  Lemma keys_join c l : NoDup (keys c) -> late_names_free c -> NoDup (keys (c ++ stacked_after (1 + max_time c) l)).
  Proof.
    intros N F. rewrite keys_app. apply NoDup_app_iff. split; auto. split.
    - pose proof (stacked_sorted (1 + max_time c) l) as H.
      assert (K : forall p, In p (stacked_after (1 + max_time c) l) -> fst p = NT [NI (g_time (snd p)); NT (g_qubits (snd p))]).
      { intros [k g] I. apply stacked_In in I as (_ & _ & _ & _ & _ & _ & E). auto. }
      clear F N. induction H as [|p r S1 IH Fp]; simpl; constructor.
      + intros X. unfold keys in X. apply in_map_iff in X as (p' & E & Ip'). rewrite (K p) in E by (simpl; auto).
        rewrite (K p') in E by (simpl; auto). rewrite Forall_forall in Fp. specialize (Fp p' Ip').
        assert (g_time (snd p') = g_time (snd p)) by congruence. lia.
      + apply IH. intros p' I. apply K. simpl; auto.
    - intros x Ix Iy. unfold keys in Iy. apply in_map_iff in Iy as ([k g] & <- & I).
      apply stacked_In in I as (_ & _ & _ & _ & _ & L & E). simpl in Ix. rewrite E in Ix. apply F in Ix; auto. lia.
  Qed.
End Build.

(** ** one operation alone *)
Section Single.
  Variable S : scalar.
  Local Open Scope K_scope.
  Add Ring Kring_single : (kring S).
  Lemma place_in qs : forall bs, NoDup qs -> length bs = length qs -> map (place qs bs) qs = bs.
  Proof. intros bs N L. unfold place. apply upds_map; auto. Qed.
  Lemma place_out qs bs q : ~ In q qs -> place qs bs q = 0%nat.
  Proof. intros N. unfold place. rewrite upds_notin; auto. Qed.
  Lemma history_one (g : act S) q : history [g] q = word_at g q.
  Proof. unfold history; simpl. apply app_nil_r. Qed.
  Lemma amplitude_single Q (g : act S) o i : NoDup Q -> NoDup (on g) -> incl (on g) Q ->
    wires_out Q [g] = act_outs g -> wires_in Q [g] = act_ins g ->
    bits (length (act_outs g)) o -> bits (length (act_ins g)) i -> amplitude Q [g] o i = amp g o i.
  Proof.
    intros NQ Ng I Wo Wi Bo Bi. unfold amplitude. rewrite Wo, Wi. cbn [run fold_left]. unfold evolve.
    set (x := place (act_outs g) o). set (y := place (act_ins g) i).
    assert (E : esum (qdom Q) (fun before => matrix Q g x before * basis Q y before) env0 = matrix Q g x y).
    { rewrite <- (@basis_pair S Q y (fun before => matrix Q g x before)).
      - apply esum_ext_all. intros s. ring.
      - auto.
      - intros q Iq. apply bits_place; auto.
      - intros s s' Es. unfold matrix. f_equal.
        + f_equal. apply forallb_iff. split; intros H q Iq; specialize (H q Iq); rewrite (Es q) in *; auto.
        + f_equal. apply map_ext_in. intros q Iq. apply Es. apply I. unfold act_ins in Iq. apply filter_In in Iq; tauto. }
    rewrite E. unfold matrix.
    assert (No : NoDup (act_outs g)) by (apply NoDup_filter; auto).
    assert (Ni : NoDup (act_ins g)) by (apply NoDup_filter; auto).
    unfold x at 2. unfold y at 2. rewrite !place_in; auto; [|destruct Bi; auto|destruct Bo; auto].
    assert (T : forallb (fun q => wire_ok (word_at g q) (y q) (x q)) Q = true).
    { apply forallb_forall. intros q Iq.
      assert (Io : In q (act_outs g) <-> ends_out (word_at g q) = true).
      { rewrite <- Wo. unfold wires_out. rewrite filter_In, history_one. tauto. }
      assert (Ii : In q (act_ins g) <-> starts_in (word_at g q) = true).
      { rewrite <- Wi. unfold wires_in. rewrite filter_In, history_one. tauto. }
      unfold wire_ok. destruct (word_at g q) as [|a w] eqn:W.
      - unfold x, y. rewrite !place_out; auto; [rewrite Io|rewrite Ii]; intros X; discriminate X.
      - destruct (starts_in (a :: w)) eqn:S1; destruct (ends_out (a :: w)) eqn:E1; simpl; auto;
          unfold x, y; rewrite ?place_out; auto; try (rewrite Io; congruence); rewrite Ii; congruence. }
    rewrite T. simpl. unfold kdelta. ring.
  Qed.
End Single.

(** ** a | b *)
Section Join.
  Variable S : scalar.
  Notation op := (op S).
  Local Open Scope K_scope.

  Lemma range_NoDup n : NoDup (range_names n).
  Proof. unfold range_names. apply FinFun.Injective_map_NoDup; [|apply seq_NoDup]. intros x y E. assert (Z.of_nat x = Z.of_nat y) by congruence. lia. Qed.
  Lemma range_length n : length (range_names n) = n.
  Proof. unfold range_names. rewrite map_length, seq_length. auto. Qed.
  Lemma range_sorted n : StronglySorted (below name_lt) (range_names n).
  Proof.
    unfold range_names. generalize 0%nat as k. induction n as [|n IH]; intros k; cbn [seq map]; constructor; auto.
    rewrite Forall_map, Forall_forall. intros j Ij. apply in_seq in Ij. unfold below. cbn. f_equal. apply Z.ltb_lt. lia.
  Qed.
  (** an operation as a whole, on the qubits 0, 1, ... *)
  Definition whole_gate (o : op) : name * gate op := (NN, Gate 0%Z (range_names (length (shape_or o))) o).
  Definition whole (o : op) : act S := gate_act (whole_gate o).
  Lemma whole_ok (o : op) sh : op_shape o = Ok sh -> gates_ok [whole_gate o].
  Proof.
    intros E k g [X|[]]. inversion X; subst. simpl. split; [apply range_NoDup|]. unfold op_len. rewrite E, range_length.
    simpl. rewrite (shape_or_eq _ E). auto.
  Qed.
  Lemma append_extend (o : op) qs c r : (do acc <- c_append o qs None None c; Ok acc) = Ok r -> c_append o qs None None c = Ok r.
  Proof. destruct (c_append o qs None None c); simpl; congruence. Qed.

  (** the operations that the two operands of | stand for *)
  Definition first_part (a : op) : list (act S) := match a with OCirc c => map (@gate_act S) (in_order c) | _ => [whole a] end.
  Definition second_part (a b : op) : list (act S) :=
    match a, b with
    | OCirc _, OCirc d => map (@gate_act S) (in_order d)
    | _, _ => [whole b]
    end.
  Definition left_free (a : op) : Prop := match a with OCirc c => late_names_free c | _ => True end.
  Lemma append_as_extend (o : op) c : c_append o (range_names (length (shape_or o))) None None c = c_extend [whole_gate o] c.
  Proof. simpl. destruct (c_append o (range_names (length (shape_or o))) None None c); auto. Qed.
  Lemma len_bind {X} (o : op) (f : nat -> res X) sh : op_shape o = Ok sh -> bind (op_len o) f = f (length (shape_or o)).
  Proof. intros E. unfold op_len. rewrite E. simpl. rewrite (shape_or_eq _ E). auto. Qed.
  Lemma or_eq (a b : op) sa sb : op_wf a -> op_wf b -> op_shape a = Ok sa -> op_shape b = Ok sb -> left_free a ->
    exists c l, op_or a b = Ok (OCirc (c ++ stacked_after (1 + max_time c) l)) /\
      NoDup (keys c) /\ late_names_free c /\ gates_ok c /\ gates_ok l /\
      (forall k g, In (k, g) c \/ In (k, g) l -> op_wf (g_op g) /\ (op_pure a = Ok true -> op_pure b = Ok true -> op_pure (g_op g) = Ok true)) /\ apart_ok (map_circ (@spec_of S) c) /\
      map (@gate_act S) (in_order c) ++ map (@gate_act S) l = first_part a ++ second_part a b.
  Proof.
    intros Wa Wb Ea Eb F.
    assert (Non : (forall c, a <> OCirc c) -> exists c l, op_or a b = Ok (OCirc (c ++ stacked_after (1 + max_time c) l)) /\
      NoDup (keys c) /\ late_names_free c /\ gates_ok c /\ gates_ok l /\
      (forall k g, In (k, g) c \/ In (k, g) l -> op_wf (g_op g) /\ (op_pure a = Ok true -> op_pure b = Ok true -> op_pure (g_op g) = Ok true)) /\ apart_ok (map_circ (@spec_of S) c) /\
      map (@gate_act S) (in_order c) ++ map (@gate_act S) l = [whole a] ++ [whole b]).
    { intros Na. exists [], [whole_gate a; whole_gate b].
      assert (G : gates_ok [whole_gate a; whole_gate b]).
      { intros k g [X|[X|[]]]; [apply (@whole_ok a sa Ea k g)|apply (@whole_ok b sb Eb k g)]; simpl; auto. }
      assert (F0 : late_names_free (S := S) []) by (intros t qs _ []).
      assert (E : op_or a b = do r <- c_extend [whole_gate a; whole_gate b] []; Ok (OCirc r)).
      { assert (E1 : op_or a b = do m <- op_len a; do c <- c_append a (range_names m) None None [];
                                 do n <- op_len b; do r <- c_append b (range_names n) None None c; Ok (OCirc r)).
        { destruct a; auto. destruct (Na c); auto. }
        rewrite E1. rewrite (len_bind _ _ Ea). cbn [c_extend whole_gate g_op g_qubits].
        destruct (c_append a (range_names (length (shape_or a))) None None []) as [c1|]; cbn [bind]; auto.
        rewrite (len_bind _ _ Eb). destruct (c_append b (range_names (length (shape_or b))) None None c1); auto. }
      rewrite E, (extend_ok G F0). cbn [bind]. split; auto. split; [constructor|]. split; auto. split; [intros ? ? []|]. split; auto.
      split; [|split; [constructor|reflexivity]].
      intros k g [[]|[X|[X|[]]]]; inversion X; subst; auto. }
    destruct a as [| | | | | |c|]; try (apply Non; congruence). clear Non. simpl in F.
    inversion Wa as [| | | | | |? Nk Wk G|]; subst.
    destruct (circ_facts G Ea) as (Q & AQ & Ap & _).
    assert (Hb : (exists d, b = OCirc d) \/ (forall d, b <> OCirc d)) by (destruct b; eauto; right; congruence).
    destruct Hb as [[d ->]|Nb].
    - inversion Wb as [| | | | | |? Nd Wd Gd|]; subst. exists c, (in_order d).
      simpl op_or. rewrite (copy_ok Nk G). cbn [bind]. rewrite (extend_ok (gates_order Gd) F). cbn [bind].
      split; auto. split; auto. split; auto. split; auto. split; [apply gates_order; auto|]. split; auto.
      intros k g [I|I]; [split; [eauto|]; intros Pa _; destruct (pure_circ _ Pa) as [_ Pg]; eauto|].
      assert (J : In (k, g) d) by (eapply Permutation_in; [apply Permutation_sym, in_order_perm|exact I]).
      split; [apply (Wd k g); auto|]. intros _ Pb. destruct (pure_circ _ Pb) as [_ Pg]. eauto.
    - exists c, [whole_gate b].
      assert (E : op_or (OCirc c) b = do c <- c_copy c []; do n <- op_len b; do r <- c_append b (range_names n) None None c; Ok (OCirc r)).
      { destruct b; auto. destruct (Nb c0); auto. }
      rewrite E, (copy_ok Nk G). cbn [bind]. rewrite (len_bind _ _ Eb), append_as_extend, (extend_ok (@whole_ok b sb Eb) F). cbn [bind].
      split; auto. split; auto. split; auto. split; auto. split; [eapply whole_ok; eauto|]. split; [|split; auto].
      + intros k g [I|[X|[]]]; [split; [eauto|]; intros Pa _; destruct (pure_circ _ Pa) as [_ Pg]; eauto|].
        inversion X; subst; auto.
      + simpl. f_equal. destruct b; auto. destruct (Nb c0); auto.
  Qed.
End Join.
