(** The tensors of all pure operations: the conversion computes the amplitudes of CircSem. *)
From Coq Require Import Sorting.Permutation Sorting.Sorted.
From Verif Require Import Base Scalar NetSpec Sums NetAlg ModelArray ModelTN TNInv TNOps TNSpec TNValue TNExact TNEdit
  TNEdit2 ModelVal ModelOps OpsSpec OpsProofs OpsValue ModelContract ContractExec NameOrder CircSpec CircSum CircOrder
  ModelCircuit CircSem CircShape CircWire CircStep CircNet CircCtrl CircWhen.
Set Implicit Arguments.

(** ** the order of simultaneous gates does not matter *)
Section Order.
  Variable S : scalar.
  Notation acts c := (map (fun p => gact (snd p)) c).
  Implicit Types c : circ (list role * ampl S).
  Lemma acts_tacts c : acts c = map snd (tacts c).
  Proof. unfold tacts. rewrite map_map. auto. Qed.
  Lemma order_history c c' q : Permutation c c' -> StronglySorted (@gate_le _) c' -> apart_ok c ->
    history (circ_acts c) q = history (acts c') q.
  Proof.
    intros P Ss A. unfold circ_acts. rewrite !acts_tacts. apply history_time_order.
    - unfold tacts. apply Permutation_map. eapply perm_trans; [apply Permutation_sym, in_order_perm|exact P].
    - apply tacts_sorted, in_order_sorted.
    - apply tacts_sorted; auto.
    - assert (Z : apart_ok (in_order c)); [|exact Z]. eapply apart_perm; [apply in_order_perm|exact A].
  Qed.
  Lemma order_amplitude Q c c' o i : Permutation c c' -> StronglySorted (@gate_le _) c' -> apart_ok c -> circ_ok c ->
    NoDup Q -> (forall p, In p c -> incl (g_qubits (snd p)) Q) ->
    bits (length (wires_out Q (circ_acts c))) o ->
    amplitude Q (circ_acts c) o i = amplitude Q (acts c') o i.
  Proof.
    intros P Ss A G NQ I Bo. unfold amplitude.
    assert (Eo : wires_out Q (acts c') = wires_out Q (circ_acts c)).
    { apply filter_ext. intros q. rewrite (order_history q P Ss A); auto. }
    assert (Ei : wires_in Q (acts c') = wires_in Q (circ_acts c)).
    { apply filter_ext. intros q. rewrite (order_history q P Ss A); auto. }
    rewrite Eo, Ei. unfold circ_acts at 1. rewrite !acts_tacts. apply run_time_order; auto.
    - unfold tacts. apply Permutation_map. eapply perm_trans; [apply Permutation_sym, in_order_perm|exact P].
    - apply tacts_sorted, in_order_sorted.
    - apply tacts_sorted; auto.
    - assert (Z : apart_ok (in_order c)); [|exact Z]. eapply apart_perm; [apply in_order_perm|exact A].
    - unfold tacts. rewrite Forall_map. apply Forall_forall. intros p Ip.
      assert (Ip' : In p c) by (eapply Permutation_in; [apply Permutation_sym, in_order_perm|exact Ip]).
      split; simpl; [|apply I; auto]. unfold circ_ok in G. rewrite Forall_forall in G. apply (G p Ip').
    - apply basis_depends.
    - intros q Iq. apply bits_place; auto.
  Qed.
  Lemma count_truncate (p : role -> bool) (h : name -> word) Q :
    (forall q, p (RW (truncate (h q))) = p (RW (h q))) ->
    count p (map (fun q => RW (truncate (h q))) Q) = length (filter (fun q => p (RW (h q))) Q).
  Proof.
    intros H. unfold count. induction Q as [|q Q IH]; simpl; auto. rewrite H. destruct (p (RW (h q))); simpl; auto.
  Qed.
End Order.

(** ** the circuit built for a controlled circuit *)
Lemma set_fresh {B} k (v : B) (l : list (name * B)) : ~ In k (keys l) -> set k v l = l ++ [(k, v)].
Proof.
  induction l as [|[x w] l IH]; intros N; simpl; auto. destruct (eqb_spec k x) as [->|]; [simpl in N; tauto|].
  f_equal. apply IH. simpl in N; tauto.
Qed.
Section Seq.
  Context {A : Type}.
  Definition ctl_qubits (qs l : list name) : list name := NI 0 :: map (fun q => NI (1 + Z.of_nat (index_of q qs))) l.
  Fixpoint ctl_seq (qs : list name) (k : Z) (c : circ A) : circ A :=
    match c with
    | [] => []
    | (_, g) :: r =>
        (NT [NI k; NT (ctl_qubits qs (g_qubits g))], Gate k (ctl_qubits qs (g_qubits g)) (g_op g)) :: ctl_seq qs (k + 1) r
    end.
  Lemma ctl_seq_times qs : forall c k p, In p (ctl_seq qs k c) ->
    exists j, (k <= j)%Z /\ g_time (snd p) = j /\ fst p = NT [NI j; NT (g_qubits (snd p))].
  Proof.
    induction c as [|[x g] r IH]; intros k p I; simpl in I; [tauto|]. destruct I as [<-|I].
    - exists k. simpl. repeat split; auto; lia.
    - apply IH in I as (j & L & E). exists j. split; auto; lia.
  Qed.
  Lemma ctl_seq_keys qs : forall c k, NoDup (keys (ctl_seq qs k c)).
  Proof.
    induction c as [|[x g] r IH]; intros k; simpl; constructor; auto. intros I. unfold keys in I. apply in_map_iff in I as (p & E & I).
    apply ctl_seq_times in I as (j & L & _ & E'). assert (k = j) by congruence. lia.
  Qed.
  Lemma ctl_seq_sorted qs : forall c k, StronglySorted (fun p q => g_time (snd p) < g_time (snd q))%Z (ctl_seq qs k c).
  Proof.
    induction c as [|[x g] r IH]; intros k; simpl; constructor; auto. apply Forall_forall. intros p I.
    apply ctl_seq_times in I as (j & L & E & _). simpl. lia.
  Qed.
  Lemma ctl_seq_In qs : forall c k p, In p (ctl_seq qs k c) ->
    exists x g, In (x, g) c /\ g_qubits (snd p) = ctl_qubits qs (g_qubits g) /\ g_op (snd p) = g_op g.
  Proof.
    induction c as [|[x g] r IH]; intros k p I; simpl in I; [tauto|]. destruct I as [<-|I].
    - exists x, g. simpl; auto.
    - apply IH in I as (y & h & I & E). exists y, h. simpl; auto.
  Qed.
  Lemma ctl_seq_In' qs : forall c k x g, In (x, g) c ->
    exists p, In p (ctl_seq qs k c) /\ g_qubits (snd p) = ctl_qubits qs (g_qubits g) /\ g_op (snd p) = g_op g.
  Proof.
    induction c as [|[x g] r IH]; intros k y h I; simpl in I; [tauto|]. simpl. destruct I as [E|I].
    - inversion E; subst. eexists. split; [left; reflexivity|]. auto.
    - destruct (IH (k + 1)%Z y h I) as (p & Ip & E). exists p; auto.
  Qed.
  Lemma index_inj (qs : list name) x y : In x qs -> In y qs -> index_of x qs = index_of y qs -> x = y.
  Proof. intros I J E. apply index_of_nth in I, J. rewrite E in I. congruence. Qed.
  Lemma ctl_qubits_NoDup qs l : incl l qs -> NoDup l -> NoDup (ctl_qubits qs l).
  Proof.
    intros I N. unfold ctl_qubits. constructor.
    - intros X. apply in_map_iff in X as (q & E & _). assert (1 + Z.of_nat (index_of q qs) = 0)%Z by congruence. lia.
    - induction l as [|x l IH]; cbn [map]; [constructor|]. inversion N; subst. constructor.
      + intros X. apply in_map_iff in X as (q & E & Iq). assert (E' : (1 + Z.of_nat (index_of q qs) = 1 + Z.of_nat (index_of x qs))%Z) by congruence.
        assert (q = x) by (apply (index_inj qs); [apply I; simpl; auto|apply I; simpl; auto|lia]). subst; auto.
      + apply IH; auto. intros y Iy; apply I; simpl; auto.
  Qed.
  Lemma max_time_snoc (c : circ A) p : max_time (c ++ [p]) = match c with [] => g_time (snd p) | _ => Z.max (max_time c) (g_time (snd p)) end.
  Proof. destruct c as [|q c]; auto. simpl. rewrite fold_left_app. reflexivity. Qed.
End Seq.

Section Seq2.
  Variable S : scalar.
  Variable X : Type.
  Variable f : X -> info S.
  Lemma ctrl_circ_eq qs : forall (c : circ X) (acc : circ (info S)) k,
    (0 <= k)%Z -> max_time acc = (k - 1)%Z -> (acc = [] -> k = 0%Z) ->
    (forall x, In x (keys acc) -> exists t l, x = NT [NI t; l] /\ (t < k)%Z) ->
    (forall x g, In (x, g) c -> NoDup (g_qubits g) /\ incl (g_qubits g) qs /\
       exists s, i_shape (f (g_op g)) = Ok s /\ length s = Datatypes.S (length (g_qubits g))) ->
    ctrl_circ qs (map_circ f c) acc = Ok (acc ++ map_circ f (ctl_seq qs k c)).
  Proof.
    induction c as [|[x g] r IH]; intros acc k K0 M E0 Hk Hg; cbn [map_circ map ctrl_circ ctl_seq fst snd map_gate g_qubits g_op g_time]; [rewrite app_nil_r; auto|].
    destruct (Hg x g) as (N & I & s & Es & Ls); [simpl; auto|]. unfold append.
    fold (ctl_qubits qs (g_qubits g)).
    replace (1 + max_time acc)%Z with k by lia.
    rewrite (proj2 (nodupb_NoDup _) (ctl_qubits_NoDup I N)). cbn [negb]. rewrite Es. cbn [bind].
    rewrite Ls. replace (length (ctl_qubits qs (g_qubits g))) with (Datatypes.S (length (g_qubits g))) by (unfold ctl_qubits; simpl; rewrite map_length; auto).
    rewrite Nat.eqb_refl. cbn [negb bind].
    set (e := (NT [NI k; NT (ctl_qubits qs (g_qubits g))], Gate k (ctl_qubits qs (g_qubits g)) (f (g_op g)))).
    assert (Es' : set (NT [NI k; NT (ctl_qubits qs (g_qubits g))]) (Gate k (ctl_qubits qs (g_qubits g)) (f (g_op g))) acc = acc ++ [e]).
    { apply set_fresh. intros J. apply Hk in J as (t & l & E & L). assert (k = t) by congruence. lia. }
    rewrite Es'. fold (map_circ f r). rewrite (IH (acc ++ [e]) (k + 1)%Z).
    - rewrite <- app_assoc. reflexivity.
    - lia.
    - rewrite max_time_snoc. destruct acc; simpl g_time; [rewrite E0; auto|]. lia.
    - intros E. apply app_eq_nil in E as [_ E]. discriminate.
    - intros y Iy. rewrite keys_app, in_app_iff in Iy. destruct Iy as [Iy|[<-|[]]].
      + apply Hk in Iy as (t & l & E & L). exists t, l. split; auto; lia.
      + simpl. do 2 eexists. split; [reflexivity|lia].
    - intros y h Iy. apply (Hg y h). simpl; auto.
  Qed.
End Seq2.

(** ** controlled tensors *)
Section Stack.
  Variable S : scalar.
  Notation tval := (tval S).
  Local Open Scope K_scope.
  Add Ring Kring_stack : (kring S).

  Lemma unitary_all sh p : forallb role_unitary sh = true -> (forall r, role_unitary r = true -> p r = true) -> count p sh = length sh.
  Proof.
    intros U H. unfold count. induction sh as [|r sh IH]; simpl in *; auto. apply andb_prop in U as [U1 U2].
    rewrite (H r U1). simpl. auto.
  Qed.
  Lemma unitary_out r : role_unitary r = true -> role_out r = true.
  Proof. destruct r as [|[|[] [|[] []]]]; simpl; auto; discriminate. Qed.
  Lemma unitary_in r : role_unitary r = true -> role_in r = true.
  Proof. destruct r as [|[|[] [|[] []]]]; simpl; auto; discriminate. Qed.
  Lemma unitary_eq r : role_unitary r = true -> r = RC \/ r = RW [LI; LO].
  Proof. destruct r as [|[|[] [|[] []]]]; simpl; auto; discriminate. Qed.

  Lemma sel_self p sh : forall x, bits (count p sh) x -> sel p p sh x = x.
  Proof.
    unfold count. induction sh as [|r sh IH]; intros x B; simpl in *; [symmetry; apply bits_0; auto|].
    destruct (p r) eqn:Pr; simpl in *; auto. apply bits_S in B as (b & y & -> & Bb & B). f_equal; auto.
  Qed.
  Lemma sel_ext p q q' sh : (forall r, In r sh -> q r = q' r) -> forall x, sel p q sh x = sel p q' sh x.
  Proof.
    induction sh as [|r sh IH]; intros H x; simpl; auto. rewrite (H r) by (simpl; auto).
    assert (IH' : forall y, sel p q sh y = sel p q' sh y) by (apply IH; intros z Z; apply H; simpl; auto).
    destruct (p r), x; rewrite ?IH'; auto.
  Qed.
  Lemma no_ctrl sh : count is_ctrl sh = 0%nat -> forall r, In r sh -> is_ctrl r = false.
  Proof.
    unfold count. intros H r I. destruct (is_ctrl r) eqn:E; auto.
    assert (J : In r (filter is_ctrl sh)) by (apply filter_In; auto).
    destruct (filter is_ctrl sh); [destruct J|discriminate].
  Qed.
  Lemma sel_none p q sh : (forall r, In r sh -> q r = false) -> forall x, sel p q sh x = [].
  Proof.
    induction sh as [|r sh IH]; intros H x; simpl; auto. rewrite (H r) by (simpl; auto).
    rewrite IH by (intros z Z; apply H; simpl; auto).
    destruct (p r), x; auto. apply IH. intros z Z; apply H; simpl; auto.
  Qed.
  Lemma ctrl_amp_pure sh f o i : count is_ctrl sh = 0%nat -> bits (count role_out sh) o -> bits (count role_in sh) i ->
    ctrl_amp S sh f o i = f (o ++ i).
  Proof.
    intros N Bo Bi. unfold ctrl_amp. pose proof (no_ctrl _ N) as H.
    rewrite !(sel_none _ is_ctrl) by auto. cbn [app].
    rewrite (sel_ext role_out is_out role_out), (sel_ext role_in is_in role_in).
    - rewrite !sel_self by auto. replace (eqb (@nil nat) []) with true by reflexivity. simpl. unfold kdelta. ring.
    - intros r I. specialize (H r I). destruct r; [discriminate|auto].
    - intros r I. specialize (H r I). destruct r; [discriminate|auto].
  Qed.
  Lemma sel_eq sh : forallb role_unitary sh = true -> forall o i, bits (length sh) o -> bits (length sh) i ->
    eqb o i = eqb (sel role_out is_ctrl sh o) (sel role_in is_ctrl sh i) && eqb (sel role_out is_out sh o) (sel role_in is_in sh i).
  Proof.
    induction sh as [|r sh IH]; intros U o i Bo Bi; simpl in *.
    - rewrite (bits_0 Bo), (bits_0 Bi). reflexivity.
    - apply andb_prop in U as [U1 U2]. apply bits_S in Bo as (b & y & -> & Bb & Bo). apply bits_S in Bi as (b' & z & -> & Bb' & Bi).
      specialize (IH U2 y z Bo Bi).
      assert (C : forall (x x' : nat) l l', eqb (x :: l) (x' :: l') = eqb x x' && eqb l l') by reflexivity.
      destruct (unitary_eq _ U1) as [-> | ->]; simpl; rewrite !C, IH.
      + destruct (eqb b b'); auto.
      + destruct (eqb b b'), (eqb (sel role_out is_ctrl sh y) (sel role_in is_ctrl sh z)); auto.
  Qed.

  Lemma stacked_spec cond sh (d : tval) a : forallb role_unitary sh = true ->
    (forall o i, bits (length sh) o -> bits (length sh) i -> ctrl_amp S sh (tval_value d) o i = a o i) ->
    tensor_ok (ctrl_net (RC :: sh) (stacked cond sh d)) (RC :: sh) (when_amp cond a).
  Proof.
    intros U H.
    assert (Co : count role_out sh = length sh) by (apply unitary_all; auto using unitary_out).
    assert (Ci : count role_in sh = length sh) by (apply unitary_all; auto using unitary_in).
    pose proof (count_out sh) as Lo. pose proof (count_in sh) as Li.
    destruct (@ctrl_net_spec S (RC :: sh) (stacked cond sh d)) as (v & E & C & Sh & V).
    { unfold stacked. cbn [tval_shape]. rewrite twos_dims.
      replace (count is_ctrl (RC :: sh)) with (1 + count is_ctrl sh)%nat by reflexivity.
      replace (count is_in (RC :: sh)) with (count is_in sh) by reflexivity.
      replace (count is_out (RC :: sh)) with (count is_out sh) by reflexivity.
      cbn [nd_shape].
      replace (1 + count is_ctrl sh + 2 * (length sh - count is_ctrl sh))%nat
        with (1 + count is_ctrl sh + count is_in sh + count is_out sh)%nat by lia. reflexivity. }
    exists v. split; auto. split; [apply C; constructor|]. split; auto.
    intros o i Bo Bi. rewrite V by auto.
    assert (Bo' : bits (Datatypes.S (length sh)) o) by (rewrite <- Co; exact Bo).
    assert (Bi' : bits (Datatypes.S (length sh)) i) by (rewrite <- Ci; exact Bi).
    apply bits_S in Bo' as (b & y & -> & Bb & Boy). apply bits_S in Bi' as (b' & z & -> & Bb' & Biz).
    unfold ctrl_amp. cbn [sel role_out role_in is_ctrl is_out is_in]. unfold when_amp.
    assert (Cc : forall (x x' : nat) l l', eqb (x :: l) (x' :: l') = Nat.eqb x x' && eqb l l') by reflexivity.
    rewrite Cc, kdelta_and. cbn [app]. unfold stacked. cbn [tval_value nd_at].
    assert (Eb : Nat.eqb b (if cond then 1 else 0) = Nat.eqb b (bit cond)) by reflexivity. rewrite Eb.
    destruct (Nat.eqb b (bit cond)).
    - rewrite <- (H y z) by auto. unfold ctrl_amp. ring.
    - rewrite (sel_eq _ U Boy Biz), kdelta_and. unfold ident.
      assert (B1 : bits (count is_ctrl sh) (sel role_out is_ctrl sh y)).
      { apply sel_bits; [intros [|]; simpl; auto; discriminate|rewrite Co; auto]. }
      assert (B2 : bits (count is_out sh) (sel role_out is_out sh y)).
      { apply sel_bits; [intros [|]; simpl; auto; discriminate|rewrite Co; auto]. }
      set (A := sel role_out is_ctrl sh y) in *. set (B := sel role_out is_out sh y) in *. set (D := sel role_in is_in sh z).
      destruct B1 as [L1 _], B2 as [L2 _].
      replace (length sh) with (length (A ++ B)) by (rewrite app_length; lia).
      assert (F1 : forall l r : list nat, firstn (length l) (l ++ r) = l).
      { intros l r. rewrite firstn_app, firstn_all, Nat.sub_diag, firstn_O. apply app_nil_r. }
      assert (F2 : forall l r : list nat, skipn (length l) (l ++ r) = r).
      { intros l r. rewrite skipn_app, skipn_all, Nat.sub_diag, skipn_O. auto. }
      rewrite app_assoc, F1, F2, <- L1, F2. ring.
  Qed.
End Stack.

Lemma all_qubits_is {A} (c : circ A) Q : NoDup Q -> StronglySorted (below name_lt) Q ->
  (forall q, In q Q <-> In q (qubits_of c)) -> all_qubits c = Ok Q.
Proof.
  intros NQ SQ H. unfold all_qubits.
  assert (I : forall q, In q (dedup (qubits_of c)) <-> In q Q) by (intros q; rewrite dedup_In, H; tauto).
  destruct (@sort_by_total name_lt (dedup (qubits_of c)) []) as [r Er].
  { rewrite app_nil_r. intros x y Ix Iy Nxy. apply I in Ix, Iy. destruct (sorted_pair SQ Ix Iy Nxy) as [B|B].
    - exists true. exact B.
    - exists false. apply (@name_lt_flip y x true); auto. }
  { rewrite app_nil_r. apply dedup_NoDup. }
  rewrite Er. f_equal.
  assert (P : Permutation (dedup (qubits_of c)) r) by (apply sort_by_perm in Er; rewrite app_nil_r in Er; auto).
  assert (Sr : StronglySorted (below name_lt) r).
  { eapply (@sort_by_sorted name_lt (fun _ => True)) with (acc := []);
      eauto using Forall_T, name_lt_irrefl, name_lt_trans, name_lt_flip; try constructor. rewrite app_nil_r. apply dedup_NoDup. }
  eapply (@sorted_unique name_lt (fun _ => True)); eauto using Forall_T, name_lt_irrefl, name_lt_trans, name_lt_flip.
  eapply perm_trans; [apply Permutation_sym; exact P|]. apply NoDup_Permutation; auto. apply dedup_NoDup.
Qed.

Lemma index_seq (Q : list name) : NoDup Q -> map (fun q => index_of q Q) Q = seq 0 (length Q).
Proof.
  induction Q as [|q Q IH]; intros N; simpl; auto. inversion N as [|? ? Nq NQ]; subst. rewrite eqb_refl. f_equal.
  rewrite <- seq_shift, <- IH, map_map by auto. apply map_ext_in. intros x Ix. destruct (eqb_spec x q) as [->|]; [tauto|]; auto.
Qed.
Definition shifted (Q : list name) (q : name) : name := NI (1 + Z.of_nat (index_of q Q)).
Lemma shifted_inj Q x y : In x Q -> In y Q -> shifted Q x = shifted Q y -> x = y.
Proof.
  unfold shifted. intros I J E. apply (index_inj Q); auto.
  assert (1 + Z.of_nat (index_of x Q) = 1 + Z.of_nat (index_of y Q))%Z by congruence. lia.
Qed.
Lemma shifted_0 Q l : ~ In (NI 0) (map (shifted Q) l).
Proof. intros X. apply in_map_iff in X as (q & E & _). unfold shifted in E. assert (1 + Z.of_nat (index_of q Q) = 0)%Z by congruence. lia. Qed.
Lemma shifted_sorted Q : NoDup Q -> StronglySorted (below name_lt) (NI 0 :: map (shifted Q) Q).
Proof.
  intros N. assert (E : map (shifted Q) Q = map (fun i => NI (1 + Z.of_nat i)) (seq 0 (length Q))).
  { rewrite <- (index_seq N), map_map. auto. }
  assert (E' : NI 0 :: map (shifted Q) Q = map (fun i => NI (Z.of_nat i)) (seq 0 (Datatypes.S (length Q)))).
  { rewrite E. cbn [seq map]. f_equal. rewrite <- seq_shift, map_map. apply map_ext. intros i. f_equal. lia. }
  rewrite E'. generalize (Datatypes.S (length Q)) as n, 0%nat as k. induction n as [|n IH]; intros k; cbn [seq map]; constructor; auto.
  rewrite Forall_map, Forall_forall. intros j Ij. apply in_seq in Ij. unfold below. cbn. f_equal. apply Z.ltb_lt. lia.
Qed.
