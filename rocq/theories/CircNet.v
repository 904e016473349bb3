(** The network of a circuit has the amplitudes of the circuit. *)
From Coq Require Import Sorting.Permutation Sorting.Sorted.
From Verif Require Import Base Scalar NetSpec Sums NetAlg ModelArray ModelTN TNInv TNOps TNSpec TNValue TNExact TNEdit
  TNEdit2 ModelVal ModelOps OpsSpec OpsProofs OpsValue ModelContract ContractExec NameOrder CircSpec CircSum CircOrder ModelCircuit CircSem CircShape
  CircWire CircStep.
Set Implicit Arguments.

Lemma sorted_filter {X} (R : X -> X -> Prop) p l : StronglySorted R l -> StronglySorted R (filter p l).
Proof.
  induction 1 as [|x l S1 IH F]; simpl; [constructor|]. destruct (p x); auto. constructor; auto.
  rewrite Forall_forall in *. intros y I. apply filter_In in I as [I _]. auto.
Qed.
Lemma sorted_pair {X} (R : X -> X -> Prop) l x y : StronglySorted R l -> In x l -> In y l -> x <> y -> R x y \/ R y x.
Proof.
  induction 1 as [|z l S1 IH F]; simpl; [tauto|]. rewrite Forall_forall in F. intros [->|I] [->|J] N; auto. congruence.
Qed.

(** the dictionary read in the order of its keys *)
Lemma key_order (d : list (name * name)) Q f :
  NoDup (keys d) -> incl (keys d) Q -> StronglySorted (below name_lt) Q -> NoDup Q ->
  (forall q, In q Q -> In q (keys d) -> get q d = Some (f q)) ->
  in_key_order d = Ok (map f (filter (fun q => mem q (keys d)) Q)).
Proof.
  intros N I SQ NQ G. unfold in_key_order.
  destruct (@sort_by_total name_lt (keys d) []) as [r Er].
  { rewrite app_nil_r. intros x y Ix Iy Nxy. destruct (sorted_pair SQ (I _ Ix) (I _ Iy) Nxy) as [B|B].
    - exists true. exact B.
    - exists false. apply (@name_lt_flip y x true); auto. }
  { rewrite app_nil_r; auto. }
  rewrite Er. cbn [bind].
  assert (P : Permutation (keys d) r) by (apply sort_by_perm in Er; rewrite app_nil_r in Er; auto).
  assert (Sr : StronglySorted (below name_lt) r).
  { eapply (@sort_by_sorted name_lt (fun _ => True)) with (l := keys d) (acc := []);
      eauto using Forall_T, name_lt_irrefl, name_lt_trans, name_lt_flip; try constructor. rewrite app_nil_r; auto. }
  assert (E : r = filter (fun q => mem q (keys d)) Q).
  { eapply (@sorted_unique name_lt (fun _ => True)); eauto using Forall_T, name_lt_irrefl, name_lt_trans, name_lt_flip.
    - apply sorted_filter; auto.
    - apply Permutation_sym. eapply perm_trans; [|exact P]. apply NoDup_Permutation; auto.
      + apply NoDup_filter; auto.
      + intros x. rewrite filter_In, mem_In. split; [tauto|]. intros X; split; auto. }
  rewrite E.
  assert (H : forall l, incl l Q -> (forall q, In q l -> In q (keys d)) ->
            mapM (fun k => match get k d with Some e => Ok e | None => Err KeyError end) l = Ok (map f l)).
  { induction l as [|q l IH]; intros X Y; simpl; auto. rewrite (G q); simpl; [|apply X; simpl; auto|apply Y; simpl; auto].
    rewrite IH; auto. intros z Z; apply X; simpl; auto. intros z Z; apply Y; simpl; auto. }
  apply H.
  - intros q X. apply filter_In in X; tauto.
  - intros q X. apply filter_In in X as [_ X]. apply mem_In; auto.
Qed.

Section Net.
  Variable S : scalar.
  Notation tval := (tval S).
  Notation env := (env (A := name)).
  Local Open Scope K_scope.
  Add Ring Kring_net : (kring S).

  (** the gates of a circuit, seen by the conversion and by the specification *)
  Variable X : Type.
  Variable fi : X -> info S.
  Variable fs : X -> list role * ampl S.
  Definition good (p : name * gate X) : Prop :=
    means (fi (g_op (snd p))) (fst (fs (g_op (snd p)))) (snd (fs (g_op (snd p)))) /\
    NoDup (g_qubits (snd p)) /\ length (g_qubits (snd p)) = length (fst (fs (g_op (snd p)))).
  Definition xact (p : name * gate X) : act S := gact (map_gate fs (snd p)).

  Lemma wired_weaken Q done (names names' : list name) (lim lim' : Z -> Z -> Prop) w (n : tn tval) :
    incl names names' -> (forall t k, lim t k -> lim' t k) -> wired Q done names lim w n -> wired Q done names' lim' w n.
  Proof.
    intros I L [H1 H2 H3 H4 H5 H6 Hc H7]. constructor; auto.
    - eapply incl_tran; eauto.
    - intros e Ie. destruct (H7 e Ie) as (t & k & q & E & Hl & Hh). exists t, k, q; auto.
  Qed.

  Definition upto (T : Z) (K : nat) (t k : Z) : Prop := (T < t)%Z \/ (t = T /\ (k < Z.of_nat K)%Z).
  Lemma wire_gates_spec Q T : NoDup Q -> forall (l : circ X) K done names w (n : tn tval),
    wired Q done names (upto T K) w n ->
    (forall p, In p l -> g_time (snd p) = T /\ good p /\ incl (g_qubits (snd p)) Q) ->
    (forall q, In q Q -> alternating (history (rev (map xact l) ++ done) q)) ->
    NoDup (keys l) -> (forall x, In x (keys l) -> ~ In x names) ->
    exists w' n', wire_gates K (map_circ fi l) w n = (n', Ok w') /\
      wired Q (rev (map xact l) ++ done) (names ++ keys l) (upto T (K + length l)) w' n'.
  Proof.
    intros NQ. induction l as [|p l IH]; intros K done names w n W H Alt N Dj; simpl.
    - exists w, n. split; auto. rewrite app_nil_r, Nat.add_0_r. auto.
    - destruct (H p) as (Tp & (Mp & Nq & Lq) & Ip); [simpl; auto|]. inversion N as [|? ? N1 N2]; subst x l0.
      set (p' := (fst p, map_gate fi (snd p))).
      destruct (@wire_step S Q done names (upto T K) w n K p' (fst (fs (g_op (snd p)))) (snd (fs (g_op (snd p))))) as (w1 & n1 & E1 & W1);
        auto.
      + intros q Iq. simpl in Alt. specialize (Alt q Iq). rewrite <- app_assoc in Alt. simpl in Alt. rewrite history_app in Alt.
        apply alternating_app_r in Alt. exact Alt.
      + apply Dj. simpl; auto.
      + simpl. rewrite Tp. unfold upto. lia.
      + change (wire_gates K (p' :: map_circ fi l) w n) with ((let! w := wire_gate K p' w in wire_gates (Datatypes.S K) (map_circ fi l) w) n).
        rewrite (@mbind_eq _ _ _ _ _ n n1 w1) by exact E1.
        destruct (IH (Datatypes.S K) (xact p :: done) (names ++ [fst p]) w1 n1) as (w2 & n2 & E2 & W2); auto.
        * eapply wired_weaken; [| |exact W1].
          -- intros x [<-|Ix]; apply in_app_iff; simpl; auto.
          -- simpl. rewrite Tp. intros t k. unfold upto. lia.
        * intros q Iq. simpl in H. apply H; auto.
        * intros q Iq. specialize (Alt q Iq). simpl in Alt. rewrite <- app_assoc in Alt. exact Alt.
        * intros x Ix Jx. apply in_app_iff in Jx as [Jx|[<-|[]]]; [apply (Dj x); simpl; auto|]. apply N1. exact Ix.
        * exists w2, n2. split; auto. rewrite <- app_assoc. simpl.
          rewrite <- app_assoc in W2. simpl in W2. replace (K + Datatypes.S (length l))%nat with (Datatypes.S (K + length l)) by lia. exact W2.
  Qed.

  Definition later (T t k : Z) : Prop := (T < t)%Z.
  Lemma wire_times_spec Q : NoDup Q -> forall (L : list (Z * circ X)) done names w (n : tn tval) lim,
    wired Q done names lim w n ->
    (forall T l p, In (T, l) L -> In p l -> g_time (snd p) = T /\ good p /\ incl (g_qubits (snd p)) Q) ->
    StronglySorted (fun a b => fst b < fst a)%Z L -> (forall T l t k, In (T, l) L -> lim t k -> (T < t)%Z) ->
    (forall q, In q Q -> alternating (history (rev (map xact (concat (map snd L))) ++ done) q)) ->
    NoDup (keys (concat (map snd L))) -> (forall x, In x (keys (concat (map snd L))) -> ~ In x names) ->
    exists w' n' lim', wire_times (map (fun p => (fst p, map_circ fi (snd p))) L) w n = (n', Ok w') /\
      wired Q (rev (map xact (concat (map snd L))) ++ done) (names ++ keys (concat (map snd L))) lim' w' n'.
  Proof.
    intros NQ. induction L as [|[T l] L IH]; intros done names w n lim W H Ss Lm Alt N Dj; simpl.
    - exists w, n, lim. split; auto. rewrite app_nil_r. auto.
    - simpl in *. inversion Ss as [|? ? S1 F1]; subst. rewrite Forall_forall in F1.
      assert (Ek : keys (l ++ concat (map snd L)) = keys l ++ keys (concat (map snd L))) by apply keys_app.
      rewrite Ek in *. apply NoDup_app_iff in N as (Na & Nb & Nab).
      rewrite map_app, rev_app_distr, <- app_assoc in *.
      destruct (@wire_gates_spec Q T NQ l 0 done names w n) as (w1 & n1 & E1 & W1); auto.
      + eapply wired_weaken; [apply incl_refl| |exact W]. intros t k Hl. left. eapply Lm; eauto.
      + intros p Ip. apply H with (l := l); auto.
      + intros q Iq. specialize (Alt q Iq). rewrite history_app in Alt. apply alternating_app_r in Alt. auto.
      + intros x Ix. apply Dj, in_app_iff; auto.
      + rewrite (@mbind_eq _ _ _ _ _ n n1 w1) by exact E1.
        destruct (IH (rev (map xact l) ++ done) (names ++ keys l) w1 n1 (upto T (0 + length l))) as (w2 & n2 & lim2 & E2 & W2); auto.
        * intros T' l' p Il Ip. apply H with (l := l'); auto.
        * intros T' l' t k Il Hl. specialize (F1 _ Il). simpl in F1. unfold upto in Hl. lia.
        * intros x Ix Jx. apply in_app_iff in Jx as [Jx|Jx]; [|apply (Nab x); auto]. apply (Dj x); auto. apply in_app_iff; auto.
        * exists w2, n2, lim2. split; auto. rewrite <- app_assoc in W2. auto.
  Qed.

  (** [circ_net] returns the network, and its entries are the amplitudes *)
  Definition pure_gate (p : name * gate X) : Prop := i_pure (fi (g_op (snd p))) = Ok true.
  Lemma map_circ_map {A B C} (f : A -> B) (g : B -> C) c : map_circ g (map_circ f c) = map_circ (fun x => g (f x)) c.
  Proof. unfold map_circ. rewrite map_map. apply map_ext. intros [k [t q a]]; reflexivity. Qed.
  Lemma good_shapes (c : circ X) : Forall good c -> map_circ (@i_shape S) (map_circ fi c) = shapes (map_circ fs c).
  Proof.
    intros G. unfold shapes. rewrite !map_circ_map. unfold map_circ. apply map_ext_in. intros p Ip.
    rewrite Forall_forall in G. destruct (G p Ip) as ((E & _) & _). destruct p as [k [t q a]]. unfold map_gate; simpl in *. rewrite E. auto.
  Qed.
  Lemma good_ok (c : circ X) : Forall good c -> circ_ok (map_circ fs c).
  Proof.
    intros G. unfold circ_ok, map_circ. rewrite Forall_map. eapply Forall_impl; [|exact G].
    intros p (_ & N & L). split; auto.
  Qed.
  Lemma all_pure_ok (c : circ X) : Forall pure_gate c -> all_pure (map_circ fi c) = Ok true.
  Proof.
    induction 1 as [|[k [t q a]] c P F IH]; simpl; auto. unfold pure_gate in P; simpl in P. rewrite P. cbn [bind].
    fold (map_circ fi c). rewrite IH. reflexivity.
  Qed.

  Lemma xacts (l : circ X) : map xact l = map snd (tacts (map_circ fs l)).
  Proof. unfold tacts, map_circ. rewrite !map_map. apply map_ext. intros [k [t q a]]; reflexivity. Qed.
  Lemma tacts_sorted (c : circ (list role * ampl S)) : StronglySorted (@gate_le _) c -> StronglySorted (@time_le S) (tacts c).
  Proof.
    induction 1 as [|p c S1 IH F]; simpl; constructor; auto. unfold tacts. rewrite Forall_map. exact F.
  Qed.

  Theorem circ_net_spec (c : circ X) Q :
    Forall good c -> Forall pure_gate c -> NoDup (keys c) -> all_qubits c = Ok Q ->
    apart_ok (map_circ fs c) -> alt_ok (map_circ fs c) ->
    let gs := circ_acts (map_circ fs c) in
    exists v, circ_net (map_circ fi c) = Ok v /\ complete v /\ tval_shape v = twos (length (wires_out Q gs) + length (wires_in Q gs)) /\
      forall o i, bits (length (wires_out Q gs)) o -> bits (length (wires_in Q gs)) i ->
        tval_value v (o ++ i) = amplitude Q gs o i.
  Proof.
    intros G Pu N AQ Ap Al gs.
    destruct (all_qubits_spec _ AQ) as (NQ & SQ & MQ).
    assert (Ok1 := good_ok G).
    assert (Shp := circ_shape_spec Ok1).
    assert (AQ' : all_qubits (map_circ fs c) = Ok Q) by (rewrite all_qubits_map; auto).
    assert (Pure : circ_pure (map_circ fi c) = Ok true).
    { unfold circ_pure. rewrite good_shapes by auto.
      destruct (circ_shape (shapes (map_circ fs c))) as [sh|[]]; try tauto; simpl.
      - rewrite all_pure_ok; auto.
      - congruence. }
    unfold circ_net. rewrite Pure. cbn [bind negb].
    set (ro := rev_order c).
    assert (Pro : Permutation c ro) by apply rev_order_perm.
    assert (Etl : concat (map snd (rev (by_time c))) = rev ro) by (unfold ro, rev_order; rewrite rev_involutive; auto).
    (* the gates in the order of the conversion have the same history *)
    set (L := tacts (map_circ fs (in_order c))). set (L' := tacts (map_circ fs ro)).
    assert (Egs : gs = map snd L).
    { unfold gs, circ_acts, L, tacts. rewrite in_order_map, map_map. auto. }
    assert (PL : Permutation L L').
    { unfold L, L', tacts, map_circ. do 2 apply Permutation_map. eapply perm_trans; [apply Permutation_sym, in_order_perm|exact Pro]. }
    assert (SL : StronglySorted (@time_le S) L).
    { apply tacts_sorted. rewrite <- in_order_map. apply in_order_sorted. }
    assert (SL' : StronglySorted (@time_le S) L').
    { apply tacts_sorted. unfold ro. pose proof (rev_order_sorted c) as H. revert H. generalize (rev_order c).
      induction 1 as [|p l S1 IH F]; simpl; constructor; auto. unfold map_circ. rewrite Forall_map. exact F. }
    assert (FL : ForallOrdPairs (@same_time_apart S) L).
    { assert (Z : apart_ok (map_circ fs (in_order c))); [|exact Z]. eapply apart_perm; [|exact Ap]. unfold map_circ. apply Permutation_map, in_order_perm. }
    assert (Hh : forall q, history gs q = history (map snd L') q).
    { intros q. rewrite Egs. apply history_time_order; auto. }
    assert (Hgood : forall p, In p c -> good p) by (apply Forall_forall; auto).
    assert (Hinc : forall p, In p c -> incl (g_qubits (snd p)) Q).
    { intros p Ip q Iq. apply MQ, qubits_In. eauto. }
    destruct (@wire_times_spec Q NQ (rev (by_time c)) [] [] (Wires [] [] []) empty_tn (fun _ _ => False)) as (w & n & lim & E & W).
    { constructor; simpl.
      - exists (fun q => q), (fun q => q). split; [apply represents_nil|split; auto].
      - split; [constructor|intros ? []].
      - split; [constructor|intros ? []].
      - tauto.
      - intros ? [].
      - intros ? [].
      - constructor. intros ? ? [].
      - intros ? []. }
    { intros T l p Il Ip. apply in_rev in Il. unfold by_time in Il. apply in_map_iff in Il as (t & Et & It).
      inversion Et; subst. apply at_time_In in Ip as [Ip Tp]. auto. }
    { unfold by_time. rewrite <- map_rev. pose proof (times_sorted c) as H.
      assert (H' : StronglySorted (fun a b => b < a)%Z (rev (times c))).
      { clear -H. induction H as [|x l S1 IH F]; simpl; [constructor|]. apply sorted_app; auto; [repeat constructor|].
        intros a b Ia [<-|[]]. apply in_rev in Ia. rewrite Forall_forall in F. auto. }
      clear -H'. induction H' as [|x l S1 IH F]; simpl; constructor; auto. rewrite Forall_map. exact F. }
    { tauto. }
    { intros q Iq. rewrite Etl, app_nil_r, map_rev, rev_involutive, xacts. fold L'. rewrite <- Hh. apply Al. }
    { rewrite Etl. eapply Permutation_NoDup; [|exact N]. unfold keys. apply Permutation_map. rewrite <- Permutation_rev. auto. }
    { tauto. }
    rewrite Etl, app_nil_r, map_rev, rev_involutive, xacts in W. fold L' in W.
    destruct W as [(D & O & R & Hin & Hout) [Ni Ii] [No Io] Hall Hdim _ Hc _].
    assert (Ki : forall q, In q Q -> mem q (keys (w_in w)) = starts_in (history (map snd L') q)).
    { intros q Iq. apply eq_true_iff_eq. rewrite mem_In, <- get_key. unfold missing. rewrite (Hin q Iq).
      destruct (starts_in _); split; congruence. }
    assert (Ko : forall q, In q Q -> mem q (keys (w_out w)) = ends_out (history (map snd L') q)).
    { intros q Iq. apply eq_true_iff_eq. rewrite mem_In, <- get_key. unfold missing. rewrite (Hout q Iq).
      destruct (ends_out _); split; congruence. }
    assert (Oo : in_key_order (w_out w) = Ok (map O (wires_out Q (map snd L')))).
    { rewrite (@key_order _ Q O); auto.
      - f_equal. f_equal. apply filter_ext_in. auto.
      - intros q Iq Kq. rewrite (Hout q Iq). rewrite <- (Ko q Iq), (proj2 (mem_In _ _) Kq). auto. }
    assert (Oi : in_key_order (w_in w) = Ok (map D (wires_in Q (map snd L')))).
    { rewrite (@key_order _ Q D); auto.
      - f_equal. f_equal. apply filter_ext_in. auto.
      - intros q Iq Kq. rewrite (Hin q Iq). rewrite <- (Ki q Iq), (proj2 (mem_In _ _) Kq). auto. }
    assert (Wo : wires_out Q gs = wires_out Q (map snd L')) by (apply filter_ext; intros q; rewrite Hh; auto).
    assert (Wi : wires_in Q gs = wires_in Q (map snd L')) by (apply filter_ext; intros q; rewrite Hh; auto).
    set (n' := with_opens n (map O (wires_out Q (map snd L')) ++ map D (wires_in Q (map snd L')))).
    exists (VNet n'). split; [|split; [inversion Hc; subst; constructor; auto|split]].
    - unfold build. rewrite by_time_map, <- map_rev. rewrite (@mbind_eq _ _ _ _ _ _ n w) by exact E.
      rewrite Oo. rewrite (@mbind_eq _ _ _ _ _ _ n _) by reflexivity.
      rewrite Oi. rewrite (@mbind_eq _ _ _ _ _ _ n _) by reflexivity. reflexivity.
    - cbn [tval_shape]. unfold twos. f_equal. unfold n'; simpl. rewrite Wo, Wi.
      assert (Dm : forall l : list name, incl l (keys (edges n)) -> map (edge_dim n) l = repeat (Some 2%nat) (length l)).
      { induction l as [|e l IH]; intros I; simpl; auto. f_equal; [|apply IH; intros x Ix; apply I; simpl; auto].
        apply Hdim. apply I; simpl; auto. }
      change (edge_dim (with_opens n (map O (wires_out Q (map snd L')) ++ map D (wires_in Q (map snd L'))))) with (edge_dim n).
      rewrite Dm.
      + rewrite app_length, !map_length. auto.
      + intros e Ie. rewrite <- (keys_tn_dom n). apply in_app_iff in Ie as [Ie|Ie]; apply in_map_iff in Ie as (q & <- & Iq);
          unfold wires_out, wires_in in Iq; apply filter_In in Iq as [Iq1 Iq2]; [apply (rep_O R)|apply (rep_D R)]; auto.
    - intros o i Bo Bi. rewrite Wo in Bo. rewrite Wi in Bi.
      assert (Ea : amplitude Q gs o i = amplitude Q (map snd L') o i).
      { unfold amplitude. rewrite Wo, Wi, Egs. apply run_time_order; auto.
        - unfold L, tacts, map_circ. rewrite !Forall_map. apply Forall_forall. intros p Ip.
          assert (Ip' : In p c) by (eapply Permutation_in; [apply Permutation_sym, in_order_perm|exact Ip]).
          split; simpl; [apply (Hgood p Ip')|apply Hinc; auto].
        - intros s s' Es. unfold basis. f_equal. apply forallb_iff. split; intros H q Iq; specialize (H q Iq); rewrite (Es q) in *; auto.
        - intros q Iq. apply bits_place; auto. }
      rewrite Ea, (represents_amplitude R NQ Bo Bi). reflexivity.
  Qed.
End Net.
