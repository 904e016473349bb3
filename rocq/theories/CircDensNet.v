(** The density network of a circuit. *)
From Coq Require Import Sorting.Permutation Sorting.Sorted.
From Verif Require Import Base Scalar NetSpec Sums NetAlg ModelArray ModelTN TNInv TNOps TNSpec TNValue TNExact TNEdit
  TNEdit2 ModelVal ModelOps OpsSpec OpsProofs OpsValue ModelContract ContractExec NameOrder CircSpec CircSum CircOrder ModelCircuit CircSem CircShape
  CircWire CircStep CircNet DensSpec CircDens.
Set Implicit Arguments.

Lemma dens_key_order_eq (d : list (name * (Z * nat))) Q s f :
  NoDup (keys d) -> incl (keys d) Q -> StronglySorted (below name_lt) Q -> NoDup Q ->
  (forall q e, In q Q -> get q d = Some e -> dname e q s = f q) ->
  dens_key_order d s = Ok (map f (filter (fun q => mem q (keys d)) Q)).
Proof.
  intros N I SQ NQ G. unfold dens_key_order.
  destruct (@sort_by_total name_lt (keys d) []) as [r Er].
  { rewrite app_nil_r. intros x y Ix Iy Nxy. destruct (sorted_pair SQ (I _ Ix) (I _ Iy) Nxy) as [B|B].
    - exists true. exact B.
    - exists false. apply (@name_lt_flip y x true); auto. }
  { rewrite app_nil_r; auto. }
  rewrite Er. cbn [bind].
  assert (P : Permutation (keys d) r) by (apply sort_by_perm in Er; rewrite app_nil_r in Er; auto).
  assert (Sr : StronglySorted (below name_lt) r).
  { eapply (@sort_by_sorted name_lt (fun _ => True)) with (l := keys d) (acc := []);
      eauto using Forall_T, name_lt_irrefl, name_lt_trans, name_lt_flip; try constructor. rewrite app_nil_r; auto. }
  assert (E : r = filter (fun q => mem q (keys d)) Q).
  { eapply (@sorted_unique name_lt (fun _ => True)); eauto using Forall_T, name_lt_irrefl, name_lt_trans, name_lt_flip.
    - apply sorted_filter; auto.
    - apply Permutation_sym. eapply perm_trans; [|exact P]. apply NoDup_Permutation; auto.
      + apply NoDup_filter; auto.
      + intros x. rewrite filter_In, mem_In. split; [tauto|]. intros X; split; auto. }
  rewrite E.
  assert (H : forall l, incl l Q -> (forall q, In q l -> In q (keys d)) ->
            mapM (fun k => match get k d with Some e => Ok (dname e k s) | None => Err KeyError end) l = Ok (map f l)).
  { induction l as [|q l IH]; intros X Y; simpl; auto. destruct (key_get _ _ (Y q (or_introl eq_refl))) as [e Ge]. rewrite Ge.
    rewrite (G q e); simpl; [|apply X; simpl; auto|auto].
    rewrite IH; auto. intros z Z; apply X; simpl; auto. intros z Z; apply Y; simpl; auto. }
  apply H.
  - intros q X. apply filter_In in X; tauto.
  - intros q X. apply filter_In in X as [_ X]. apply mem_In; auto.
Qed.

Section Net.
  Variable S : scalar.
  Notation tval := (tval S).
  Notation env := (env (A := name)).
  Local Open Scope K_scope.
  Add Ring Kring_dnet : (kring S).

  Variable X : Type.
  Variable fi : X -> info S.
  Variable fs : X -> list role * chan S.
  Definition dgood (p : name * gate X) : Prop :=
    gmeans (fi (g_op (snd p))) (fst (fs (g_op (snd p)))) (snd (fs (g_op (snd p)))) /\
    NoDup (g_qubits (snd p)) /\ length (g_qubits (snd p)) = length (fst (fs (g_op (snd p)))).
  Definition xcact (p : name * gate X) : cact S := cgact (map_gate fs (snd p)).

  Lemma dwired_weaken Q done (names names' : list name) (lim lim' : Z -> nat -> Prop) w (n : tn tval) :
    incl names names' -> (forall t k, lim t k -> lim' t k) -> dwired Q done names lim w n -> dwired Q done names' lim' w n.
  Proof.
    intros I L [H1 H2 H3 H4 H5 H6 Hc H7]. constructor; auto.
    - eapply incl_tran; eauto.
    - intros e Ie. destruct (H7 e Ie) as (t & k & q & s & E & Hl & Hh). exists t, k, q, s; auto.
  Qed.

  Definition dupto (T : Z) (K : nat) (t : Z) (k : nat) : Prop := (t <= T)%Z \/ (t = (T + 1)%Z /\ (k < K)%nat).
  Lemma dens_gates_spec Q T : NoDup Q -> forall (l : circ X) K done names w (n : tn tval),
    dwired Q done names (dupto T K) w n ->
    (forall p, In p l -> g_time (snd p) = T /\ dgood p /\ incl (g_qubits (snd p)) Q) ->
    (forall q, In q Q -> alternating (history (map (@skel S) (done ++ map xcact l)) q)) ->
    NoDup (keys l) -> (forall x, In x (keys l) -> ~ In x names) ->
    exists w' n', dens_gates K (map_circ fi l) w n = (n', Ok w') /\
      dwired Q (done ++ map xcact l) (names ++ keys l) (dupto T (K + length l)) w' n'.
  Proof.
    intros NQ. induction l as [|p l IH]; intros K done names w n W H Alt N Dj; simpl.
    - exists w, n. split; auto. rewrite !app_nil_r, Nat.add_0_r. auto.
    - destruct (H p) as (Tp & (Mp & Nq & Lq) & Ip); [simpl; auto|]. inversion N as [|? ? N1 N2]; subst x l0.
      set (p' := (fst p, map_gate fi (snd p))).
      destruct (@dens_step S Q done names (dupto T K) w n K p' (fst (fs (g_op (snd p)))) (snd (fs (g_op (snd p))))) as (w1 & n1 & E1 & W1);
        auto.
      + intros q Iq. simpl in Alt. specialize (Alt q Iq). rewrite map_app, history_app in Alt.
        cbn [map] in Alt. rewrite history_cons in Alt. rewrite app_assoc in Alt. apply alternating_app_l in Alt. exact Alt.
      + apply Dj. simpl; auto.
      + simpl. rewrite Tp. unfold dupto. lia.
      + change (dens_gates K (p' :: map_circ fi l) w n) with ((let! w := dens_gate K p' w in dens_gates (Datatypes.S K) (map_circ fi l) w) n).
        rewrite (@mbind_eq _ _ _ _ _ n n1 w1) by exact E1.
        destruct (IH (Datatypes.S K) (done ++ [xcact p]) (names ++ [fst p]) w1 n1) as (w2 & n2 & E2 & W2); auto.
        * eapply dwired_weaken; [| |exact W1].
          -- intros x [<-|Ix]; apply in_app_iff; simpl; auto.
          -- simpl. rewrite Tp. intros t k. unfold dupto. lia.
        * intros q Iq. simpl in H. apply H; auto.
        * intros q Iq. specialize (Alt q Iq). simpl in Alt. rewrite <- app_assoc. exact Alt.
        * intros x Ix Jx. apply in_app_iff in Jx as [Jx|[<-|[]]]; [apply (Dj x); simpl; auto|]. apply N1. exact Ix.
        * exists w2, n2. split; auto.
          rewrite <- !app_assoc in W2. simpl in W2. replace (K + Datatypes.S (length l))%nat with (Datatypes.S (K + length l)) by lia. exact W2.
  Qed.

  Lemma dens_times_spec Q : NoDup Q -> forall (L : list (Z * circ X)) done names w (n : tn tval) lim,
    dwired Q done names lim w n ->
    (forall T l p, In (T, l) L -> In p l -> g_time (snd p) = T /\ dgood p /\ incl (g_qubits (snd p)) Q) ->
    StronglySorted (fun a b => fst a < fst b)%Z L -> (forall T l t k, In (T, l) L -> lim t k -> (t <= T)%Z) ->
    (forall q, In q Q -> alternating (history (map (@skel S) (done ++ map xcact (concat (map snd L)))) q)) ->
    NoDup (keys (concat (map snd L))) -> (forall x, In x (keys (concat (map snd L))) -> ~ In x names) ->
    exists w' n' lim', dens_times (map (fun p => (fst p, map_circ fi (snd p))) L) w n = (n', Ok w') /\
      dwired Q (done ++ map xcact (concat (map snd L))) (names ++ keys (concat (map snd L))) lim' w' n'.
  Proof.
    intros NQ. induction L as [|[T l] L IH]; intros done names w n lim W H Ss Lm Alt N Dj; simpl.
    - exists w, n, lim. split; auto. rewrite !app_nil_r. auto.
    - simpl in *. inversion Ss as [|? ? S1 F1]; subst. rewrite Forall_forall in F1.
      assert (Ek : keys (l ++ concat (map snd L)) = keys l ++ keys (concat (map snd L))) by apply keys_app.
      rewrite Ek in *. apply NoDup_app_iff in N as (Na & Nb & Nab).
      assert (Em : map xcact (l ++ concat (map snd L)) = map xcact l ++ map xcact (concat (map snd L))) by apply map_app.
      rewrite Em in *.
      destruct (@dens_gates_spec Q T NQ l 0 done names w n) as (w1 & n1 & E1 & W1); auto.
      + eapply dwired_weaken; [apply incl_refl| |exact W]. intros t k Hl. left. eapply Lm; eauto.
      + intros p Ip. apply H with (l := l); auto.
      + intros q Iq. specialize (Alt q Iq). rewrite app_assoc, map_app, history_app in Alt. apply alternating_app_l in Alt. auto.
      + intros x Ix. apply Dj, in_app_iff; auto.
      + rewrite (@mbind_eq _ _ _ _ _ n n1 w1) by exact E1.
        destruct (IH (done ++ map xcact l) (names ++ keys l) w1 n1 (dupto T (0 + length l))) as (w2 & n2 & lim2 & E2 & W2); auto.
        * intros T' l' p Il Ip. apply H with (l := l'); auto.
        * intros T' l' t k Il Hl. specialize (F1 _ Il). simpl in F1. unfold dupto in Hl. lia.
        * intros q Iq. rewrite <- app_assoc. auto.
        * intros x Ix Jx. apply in_app_iff in Jx as [Jx|Jx]; [|apply (Nab x); auto]. apply (Dj x); auto. apply in_app_iff; auto.
        * exists w2, n2, lim2. split; auto. rewrite <- !app_assoc in W2. auto.
  Qed.

  (** shapes do not depend on the entries *)
  Definition fs0 (x : X) : list role * ampl S := (fst (fs x), fun _ _ => 0).
  Lemma dgood_shapes (c : circ X) : Forall dgood c -> map_circ (@i_shape S) (map_circ fi c) = shapes (map_circ fs0 c).
  Proof.
    intros G. unfold shapes. rewrite !map_circ_map. unfold map_circ. apply map_ext_in. intros p Ip.
    rewrite Forall_forall in G. destruct (G p Ip) as ((E & _) & _). destruct p as [k [t q a]]. unfold map_gate; simpl in *. rewrite E. auto.
  Qed.
  Lemma dgood_ok (c : circ X) : Forall dgood c -> circ_ok (map_circ fs0 c).
  Proof.
    intros G. unfold circ_ok, map_circ. rewrite Forall_map. eapply Forall_impl; [|exact G].
    intros p (_ & N & L). split; auto.
  Qed.
  Lemma skel_acts (l : circ X) : map (@skel S) (map xcact l) = map snd (tacts (map_circ fs0 l)).
  Proof. unfold tacts, map_circ. rewrite !map_map. apply map_ext. intros [k [t q a]]; reflexivity. Qed.

  Theorem dens_net_spec (c : circ X) Q :
    Forall dgood c -> NoDup (keys c) -> all_qubits c = Ok Q ->
    apart_ok (map_circ fs0 c) -> alt_ok (map_circ fs0 c) ->
    let gs := map xcact (in_order c) in
    let no := length (wires_out Q (map (@skel S) gs)) in
    let ni := length (wires_in Q (map (@skel S) gs)) in
    exists v, dens_net (map_circ fi c) = Ok v /\ complete v /\ tval_shape v = twos (no + ni + (no + ni)) /\
      forall o i o' i', bits no o -> bits ni i -> bits no o' -> bits ni i' ->
        tval_value v (o ++ i ++ o' ++ i') = channel Q gs o i o' i'.
  Proof.
    intros G N AQ Ap Al gs.
    destruct (all_qubits_spec _ AQ) as (NQ & SQ & MQ).
    assert (Ok1 := dgood_ok G).
    assert (Shp := circ_shape_spec Ok1).
    assert (AQ' : all_qubits (map_circ fs0 c) = Ok Q) by (rewrite all_qubits_map; auto).
    assert (Valid : is_ok (circ_shape (map_circ (@i_shape S) (map_circ fi c))) = Ok true).
    { rewrite dgood_shapes by auto. destruct (circ_shape (shapes (map_circ fs0 c))) as [sh|[]]; try tauto; simpl; auto. congruence. }
    unfold dens_net. rewrite Valid. cbn [bind negb].
    assert (Etl : concat (map snd (by_time c)) = in_order c) by reflexivity.
    assert (Hgood : forall p, In p c -> dgood p) by (apply Forall_forall; auto).
    assert (Hinc : forall p, In p c -> incl (g_qubits (snd p)) Q).
    { intros p Ip q Iq. apply MQ, qubits_In. eauto. }
    assert (Alt : forall q, alternating (history (map (@skel S) gs) q)).
    { intros q. unfold gs. rewrite skel_acts, <- in_order_map. specialize (Al q). unfold circ_acts in Al.
      unfold tacts. rewrite map_map. exact Al. }
    destruct (@dens_times_spec Q NQ (by_time c) [] [] (DWires [] []) empty_tn (fun _ _ => False)) as (w & n & lim & E & W).
    { constructor; simpl.
      - exists (fun q => q), (fun q => q). split; [apply represents_nil|split; intros q _; simpl; auto].
      - intros ? [].
      - split; [constructor|intros ? []].
      - split; [constructor|intros ? []].
      - intros ? [].
      - intros ? [].
      - constructor. intros ? ? [].
      - intros ? []. }
    { intros T l p Il Ip. unfold by_time in Il. apply in_map_iff in Il as (t & Et & It).
      inversion Et; subst. apply at_time_In in Ip as [Ip Tp]. auto. }
    { unfold by_time. pose proof (times_sorted c) as H.
      clear -H. induction H as [|x l S1 IH F]; simpl; constructor; auto. rewrite Forall_map. exact F. }
    { tauto. }
    { intros q Iq. rewrite Etl, app_nil_l. apply Alt. }
    { rewrite Etl. eapply Permutation_NoDup; [|exact N]. unfold keys. apply Permutation_map, in_order_perm. }
    { tauto. }
    rewrite Etl, app_nil_l in W. fold gs in W.
    destruct W as [(D & O & R & Hin & Hout) Hon [Ni Ii] [No Io] Hdim _ Hc _].
    set (hs := history (map (@skel S) gs)) in *.
    assert (Ff : Forall (@fits S) gs) by (apply Forall_forall; intros g Ig; apply (Hon g Ig)).
    assert (Ki : filter (fun q => mem q (keys (dw_in w))) Q = wires_in Q (map (@skel S) gs)).
    { apply filter_ext_in. intros q Iq. specialize (Hin q Iq). cbv beta in Hin. fold (hs q) in Hin |- *. apply eq_true_iff_eq.
      rewrite mem_In, <- get_key. unfold missing. destruct (get q (dw_in w)); [destruct Hin as [-> _]; tauto|]. rewrite Hin. split; congruence. }
    assert (Ko : filter (fun q => mem q (keys (dw_out w))) Q = wires_out Q (map (@skel S) gs)).
    { apply filter_ext_in. intros q Iq. specialize (Hout q Iq). cbv beta in Hout. fold (hs q) in Hout |- *. apply eq_true_iff_eq.
      rewrite mem_In, <- get_key. unfold missing. destruct (get q (dw_out w)); [destruct Hout as [-> _]; tauto|]. rewrite Hout. split; congruence. }
    set (wo := wires_out Q (map (@skel S) gs)) in *. set (wi := wires_in Q (map (@skel S) gs)) in *.
    assert (Op : dens_key_order (dw_out w) "p" = Ok (map (fun q => O (ket q)) wo)).
    { rewrite <- Ko. apply dens_key_order_eq; auto. intros q e Iq Ge. specialize (Hout q Iq). rewrite Ge in Hout. symmetry. apply Hout. }
    assert (Od : dens_key_order (dw_out w) "d" = Ok (map (fun q => O (bra q)) wo)).
    { rewrite <- Ko. apply dens_key_order_eq; auto. intros q e Iq Ge. specialize (Hout q Iq). rewrite Ge in Hout. symmetry. apply Hout. }
    assert (Ip : dens_key_order (dw_in w) "p" = Ok (map (fun q => D (ket q)) wi)).
    { rewrite <- Ki. apply dens_key_order_eq; auto. intros q e Iq Ge. specialize (Hin q Iq). rewrite Ge in Hin. symmetry. apply Hin. }
    assert (Id : dens_key_order (dw_in w) "d" = Ok (map (fun q => D (bra q)) wi)).
    { rewrite <- Ki. apply dens_key_order_eq; auto. intros q e Iq Ge. specialize (Hin q Iq). rewrite Ge in Hin. symmetry. apply Hin. }
    set (os := map (fun q => O (ket q)) wo ++ map (fun q => D (ket q)) wi ++ map (fun q => O (bra q)) wo ++ map (fun q => D (bra q)) wi).
    set (n' := with_opens n os).
    exists (VNet n'). split; [|split; [inversion Hc; subst; constructor; auto|split]].
    - unfold build. rewrite by_time_map. rewrite (@mbind_eq _ _ _ _ _ _ n w) by exact E.
      rewrite Op. rewrite (@mbind_eq _ _ _ _ _ _ n _) by reflexivity.
      rewrite Ip. rewrite (@mbind_eq _ _ _ _ _ _ n _) by reflexivity.
      rewrite Od. rewrite (@mbind_eq _ _ _ _ _ _ n _) by reflexivity.
      rewrite Id. rewrite (@mbind_eq _ _ _ _ _ _ n _) by reflexivity. reflexivity.
    - cbn [tval_shape]. unfold twos. f_equal. unfold n'; simpl.
      assert (Dm : forall l : list name, incl l (keys (edges n)) -> map (edge_dim n) l = repeat (Some 2%nat) (length l)).
      { induction l as [|e l IH]; intros I; simpl; auto. f_equal; [|apply IH; intros x Ix; apply I; simpl; auto].
        apply Hdim. apply I; simpl; auto. }
      change (edge_dim (with_opens n os)) with (edge_dim n).
      rewrite Dm.
      + unfold os. rewrite !app_length, !map_length. f_equal. lia.
      + assert (Dd : forall q, In q wi -> In (D (ket q)) (keys (edges n)) /\ In (D (bra q)) (keys (edges n))).
        { intros q Iq. unfold wi, wires_in in Iq. apply filter_In in Iq as [I1 I2]. rewrite <- (keys_tn_dom n).
          split; apply (rep_D R); rewrite ?both_ket, ?both_bra, ?history_ket, ?history_bra; auto. }
        assert (Do : forall q, In q wo -> In (O (ket q)) (keys (edges n)) /\ In (O (bra q)) (keys (edges n))).
        { intros q Iq. unfold wo, wires_out in Iq. apply filter_In in Iq as [I1 I2]. rewrite <- (keys_tn_dom n).
          split; apply (rep_O R); rewrite ?both_ket, ?both_bra, ?history_ket, ?history_bra; auto. }
        intros e Ie. unfold os in Ie. rewrite !in_app_iff, !in_map_iff in Ie.
        destruct Ie as [(q & <- & Iq)|[(q & <- & Iq)|[(q & <- & Iq)|(q & <- & Iq)]]]; try (apply Do; auto); try (apply Dd; auto).
    - intros o i o' i' Bo Bi Bo' Bi'. unfold channel.
      assert (Ba : forall a b x y, bits a x -> bits b y -> bits (a + b) (x ++ y)).
      { intros a b x y [L1 F1] [L2 F2]. split; [rewrite app_length; lia|apply Forall_app; auto]. }
      rewrite (@represents_amplitude S (both Q) (map (@dbl S) gs) (tn_dom n) (tprod n) D O); auto.
      + rewrite dbl_wires_out, dbl_wires_in by auto. fold wo. fold wi.
        change (tval_value (VNet n') (o ++ i ++ o' ++ i')) with
          (esum (S := S) (tn_dom n) (fun s => kdelta (eqb (map s os) (o ++ i ++ o' ++ i')) * tprod n s) env0).
        apply esum_ext_all. intros s. f_equal. f_equal. unfold os. rewrite !map_both, !map_app.
        destruct Bo as [Bo _], Bi as [Bi _], Bo' as [Bo' _], Bi' as [Bi' _]. rewrite <- !app_assoc.
        rewrite !eqb_app_nat by (rewrite !map_length; auto).
        repeat match goal with |- context [eqb ?a ?b] => generalize (eqb a b); intros end.
        repeat match goal with b : bool |- _ => destruct b end; reflexivity.
      + apply both_NoDup; auto.
      + rewrite dbl_wires_out by auto. unfold both. rewrite app_length, !map_length. auto.
      + rewrite dbl_wires_in by auto. unfold both. rewrite app_length, !map_length. auto.
  Qed.
End Net.
