(** The density network of a circuit contracts when the tensors of its gates do. *)
From Coq Require Import Sorting.Permutation Sorting.Sorted.
From Verif Require Import Base Scalar NetSpec Sums NetAlg ModelArray ModelTN TNInv TNOps TNSpec TNMerge TNDelta TNValue
  TNValue2 TNExact TNEdit TNEdit2 ModelVal ModelOps OpsSpec OpsProofs OpsValue ModelNest NestSpec NestExp NestSound ModelContract ModelDeep DeepSpec
  ContractExec NameOrder CircSpec CircSum CircOrder ModelCircuit CircSem CircShape
  CircWire CircStep CircNet DensSpec CircDens CircDensNet CoreVal CoreSpec CoreNet CoreOps.
Set Implicit Arguments.
Local Open Scope nat_scope.

Lemma qubits_lt Q a b : StronglySorted (below name_lt) Q -> In a Q -> In b Q -> a <> b -> exists r, name_lt a b = Ok r.
Proof.
  intros SQ Ia Ib N. destruct (sorted_pair SQ Ia Ib N) as [B|B]; [exists true; exact B|]. exists false. apply (@name_lt_flip b a true); auto.
Qed.
Lemma dname_lt Q e q s e' q' s' : StronglySorted (below name_lt) Q -> In q Q -> In q' Q -> exists r, name_lt (dname e q s) (dname e' q' s') = Ok r.
Proof.
  intros SQ I I'. unfold dname. cbn [name_lt].
  destruct (eqb (NI (fst e)) (NI (fst e'))); [|simpl; eauto].
  destruct (eqb (NI (Z.of_nat (snd e))) (NI (Z.of_nat (snd e')))); [|simpl; eauto].
  destruct (eqb_spec q q') as [Qq|Nq].
  - destruct (eqb (NS s) (NS s')); simpl; eauto.
  - apply (qubits_lt SQ); auto.
Qed.
Lemma combine_mask {Y} a b : forall (x y z : list Y) (ms : list bool) e, length x = a -> length y = b ->
  In (true, e) (combine ((repeat false a ++ repeat true b) ++ ms) (x ++ y ++ z)) -> In e y \/ In (true, e) (combine ms z).
Proof.
  induction a as [|a IH]; intros x y z ms e Lx Ly.
  - destruct x; [|discriminate]. simpl. revert y Ly. induction b as [|b IHb]; intros [|u y] Ly; try discriminate; simpl; auto.
    intros [Q|I]; [injection Q as ->; auto|]. apply IHb in I; [tauto|simpl in Ly; lia].
  - destruct x as [|u x]; [discriminate|]. simpl. intros [Q|I]; [discriminate|]. eapply IH; eauto.
Qed.
Lemma mask_combine {Y} a b : forall (x y z : list Y) (ms : list bool) e, length x = a -> length y = b ->
  In e y \/ In (true, e) (combine ms z) -> In (true, e) (combine ((repeat false a ++ repeat true b) ++ ms) (x ++ y ++ z)).
Proof.
  induction a as [|a IH]; intros x y z ms e Lx Ly.
  - destruct x; [|discriminate]. simpl. revert y Ly. induction b as [|b IHb]; intros [|u y] Ly; try discriminate; simpl; auto.
    + tauto.
    + intros [[->|I]|I]; auto; right; apply IHb; auto.
  - destruct x as [|u x]; [discriminate|]. simpl. intros H. right. apply IH; auto.
Qed.

Section CoreDens.
  Variable S : scalar.
  Notation tval := (tval S).
  Notation net := (tn tval).

  Record dsafe (Q : list name) (w : dwires) (n : net) : Prop := {
    ds_base : base n;
    ds_free : no_fixes n;
    ds_vals : forall x nd v, get x (nodes n) = Some nd -> n_val nd = Some v -> core v /\ thin v;
    ds_names : forall x, In x (keys (nodes n)) -> gate_name x;
    ds_edges : forall e, In e (keys (edges n)) -> exists t q s, e = dname t q s /\ In q Q;
    ds_out : forall q e0, get q (dw_out w) = Some e0 -> In (dname e0 q "p") (keys (edges n)) /\ In (dname e0 q "d") (keys (edges n));
    ds_in : forall q e0, get q (dw_in w) = Some e0 -> In (dname e0 q "p") (keys (edges n)) /\ In (dname e0 q "d") (keys (edges n));
    ds_dead : forall P, dead P n -> forall e, P e -> exists q e0, get q (dw_in w) = Some e0 /\ (P (dname e0 q "p") \/ P (dname e0 q "d"))
  }.
  Lemma dsafe_empty Q : dsafe Q (DWires [] []) empty_tn.
  Proof.
    constructor; simpl; try discriminate; try tauto; try apply base_empty.
    - intros e. reflexivity.
    - intros P [D1 _ _] e Pe. destruct (D1 e Pe) as [[] _].
  Qed.

  Lemma dsafe_step Q done names lim w (n : net) k (p : name * gate (info S)) sh a w' n' v :
    dwired Q done names lim w n -> dsafe Q w n ->
    gmeans (g_op (snd p)) sh a -> NoDup (g_qubits (snd p)) -> length (g_qubits (snd p)) = length sh ->
    incl (g_qubits (snd p)) Q ->
    let A := CAct (g_qubits (snd p)) (map role_word sh) a in
    (forall q, In q Q -> alternating (history (map (@skel S) done) q ++ word_at (skel A) q)) ->
    ~ In (fst p) names -> i_val (g_op (snd p)) = Ok v -> gv (places sh ++ places sh) v -> gate_name (fst p) ->
    dens_gate k p w n = (n', Ok w') -> dsafe Q w' n'.
  Proof.
    intros [(D & O & R & Hin & Hout) Hon [Ni Ii] [No Io] Hdim Hnames Hcpl Hedges] [Bn Nf Vals Nms Eds Outs Ins Dd] M Nq Lq Iq A Alt Nx Ev Gv Gn Run.
    set (g := snd p) in *. set (t := g_time g) in *. destruct M as [Msh (v' & Ev' & Cv & Esh & _)]. rewrite Ev in Ev'. injection Ev' as <-.
    set (hs := history (map (@skel S) done)) in *. set (outs := act_outs (skel A)). set (ins := act_ins (skel A)).
    assert (Nouts : NoDup outs) by (apply NoDup_filter; auto).
    assert (Nins : NoDup ins) by (apply NoDup_filter; auto).
    assert (IoQ : forall q, In q outs -> In q Q) by (intros q X; apply Iq; apply (act_outs_on _ _ X)).
    assert (IiQ : forall q, In q ins -> In q Q) by (intros q X; apply Iq; apply (act_ins_on _ _ X)).
    assert (Lo : length outs = count role_out sh) by (apply act_outs_count; auto).
    assert (Li : length ins = count role_in sh) by (apply act_ins_count; auto).
    pose proof (@dens_ins_spec t k ins w Nins) as (Wa1 & Wa2 & Wa3 & Wa5 & Wa6).
    set (za := dens_ins t k ins w) in *.
    pose proof (@dens_outs_spec t k outs (snd za) Nouts) as (Wb1 & Wb2 & Wb3 & Wb5).
    set (zb := dens_outs t k outs (snd za)) in *.
    (* a qubit that is read without a producer has not been read before *)
    assert (New : forall q, In q ins -> get q (dw_out w) = None -> get q (dw_in w) = None).
    { intros q X Z. specialize (Hin q (IiQ q X)). specialize (Hout q (IiQ q X)). cbv beta in Hin, Hout. rewrite Z in Hout. fold (hs q) in Hin, Hout.
      destruct (get q (dw_in w)) as [e0|]; auto. destruct Hin as (St & _). exfalso.
      assert (Y : ends_out (hs q) = true).
      { rewrite <- (@alternating_meet (hs q) (word_at (skel A) q)).
        - apply act_ins_iff; auto.
        - destruct (hs q); [discriminate|congruence].
        - apply act_ins_iff in X. destruct (word_at (skel A) q); [discriminate|congruence].
        - apply Alt, IiQ, X. }
      congruence. }
    set (es := dnames (fst zb) "p" ++ dnames (fst za) "p" ++ dnames (fst zb) "d" ++ dnames (fst za) "d").
    assert (Les : length es = count role_out sh + count role_in sh + (count role_out sh + count role_in sh)).
    { unfold es, dnames. rewrite !app_length, !map_length, Wa1, Wb1, !map_length, Lo, Li. lia. }
    assert (NNes : ~ In NN es).
    { unfold es, dnames. rewrite !in_app_iff, !in_map_iff. intros [(? & E & _)|[(? & E & _)|[(? & E & _)|(? & E & _)]]]; discriminate. }
    destruct (@base_add S n (fst p) es v) as (n2 & E2 & B2 & Ad); auto.
    { rewrite Les; auto. }
    assert (Eq : n' = n2 /\ w' = snd zb).
    { unfold dens_gate in Run. fold g in Run. fold t in Run. rewrite Msh in Run. rewrite (@mbind_eq _ _ _ _ _ n n sh) in Run by reflexivity.
      assert (Po : pick (g_qubits g) (positions role_out sh) = Ok outs).
      { rewrite pick_positions by auto. unfold outs, skel, A. cbn [c_on c_words]. rewrite act_outs_role; auto. }
      assert (Pi : pick (g_qubits g) (positions role_in sh) = Ok ins).
      { rewrite pick_positions by auto. unfold ins, skel, A. cbn [c_on c_words]. rewrite act_ins_role; auto. }
      rewrite Pi, (@mbind_eq _ _ _ _ _ n n ins) in Run by reflexivity.
      rewrite Po, (@mbind_eq _ _ _ _ _ n n outs) in Run by reflexivity.
      rewrite Ev, (@mbind_eq _ _ _ _ _ n n v) in Run by reflexivity.
      fold za in Run. fold zb in Run. fold es in Run. rewrite (@mbind_eq _ _ _ _ _ n n2 (fst p)) in Run by exact E2. inversion Run; auto. }
    destruct Eq as [-> ->]. clear Run.
    assert (Eout : forall q s, In q outs -> s = "p"%string \/ s = "d"%string -> In (dname ((t + 1)%Z, k) q s) es).
    { intros q s X Hs. assert (Y : In (dname ((t + 1)%Z, k) q s) (dnames (fst zb) s)).
      { unfold dnames. rewrite Wb1, map_map. apply in_map_iff. exists q; auto. }
      unfold es. rewrite !in_app_iff. destruct Hs as [-> | ->]; auto. }
    assert (Ein : forall q s, In q ins -> s = "p"%string \/ s = "d"%string ->
      In (dname (match get q (dw_out w) with Some e => e | None => (t, k) end) q s) es).
    { intros q s X Hs. assert (Y : In (dname (match get q (dw_out w) with Some e => e | None => (t, k) end) q s) (dnames (fst za) s)).
      { unfold dnames. rewrite Wa1, map_map. apply in_map_iff. exists q; auto. }
      unfold es. rewrite !in_app_iff. destruct Hs as [-> | ->]; auto. }
    assert (Keep : forall q e0, get q (dw_in w) = Some e0 -> get q (dw_in (snd zb)) = Some e0).
    { intros q e0 Ge. rewrite Wb3, Wa3. destruct (mem_spec q ins) as [I|]; auto. unfold missing. destruct (get q (dw_out w)) eqn:Z; auto.
      rewrite (New q I Z) in Ge. discriminate. }
    constructor; auto.
    - intros e. rewrite (ad_fixed Ad). apply Nf.
    - intros x nd u G V. destruct (nodes_added x Ad G V) as [G'|(-> & -> & _)]; [eauto|]. destruct Gv as (? & ? & _); auto.
    - intros x Ix. rewrite (ad_nodes Ad), keys_app, in_app_iff in Ix. destruct Ix as [Ix|[<-|[]]]; auto.
    - intros e Ie. apply (ad_edges Ad) in Ie as [Ie|Ie]; auto. unfold es, dnames in Ie. rewrite Wa1, Wb1, !map_map, !in_app_iff, !in_map_iff in Ie.
      destruct Ie as [(q & <- & I)|[(q & <- & I)|[(q & <- & I)|(q & <- & I)]]]; cbn [fst snd]; eauto 6.
    - intros q e0. rewrite Wb2. destruct (mem_spec q outs) as [I|_].
      + intros Q1. injection Q1 as <-. split; apply (ad_edges Ad); right; apply Eout; auto.
      + rewrite Wa2. destruct (mem q ins); [discriminate|]. intros Ge. split; apply (ad_edges Ad); left; apply Outs; auto.
    - intros q e0. rewrite Wb3, Wa3. destruct (mem_spec q ins) as [I|_].
      + unfold missing. destruct (get q (dw_out w)) as [e1|] eqn:Z; cbn [andb].
        * intros Ge. split; apply (ad_edges Ad); left; apply Ins; auto.
        * intros Q1. injection Q1 as <-. specialize (Ein q). rewrite Z in Ein. split; apply (ad_edges Ad); right; apply Ein; auto.
      + intros Ge. split; apply (ad_edges Ad); left; apply Ins; auto.
    - intros P DP.
      assert (Old : forall e, P e -> In e (keys (edges n)) -> exists q e0, get q (dw_in (snd zb)) = Some e0 /\ (P (dname e0 q "p") \/ P (dname e0 q "d"))).
      { intros e Pe Ie. destruct (Dd _ (dead_before Bn Ad DP) e (conj Pe Ie)) as (q & e0 & Ge & Hp). exists q, e0. split; [auto|tauto]. }
      intros e Pe. destruct Gv as (_ & _ & Gr). destruct (dead_added (places sh ++ places sh) e Ad DP Gr Pe) as [Ie|(e' & Pe' & I)]; [eauto|].
      assert (In_a : exists s, (s = "p"%string \/ s = "d"%string) /\ In e' (dnames (fst za) s)).
      { unfold es, places in I. apply combine_mask in I; [|unfold dnames; rewrite map_length, ?Wb1, ?Wa1, map_length; auto|unfold dnames; rewrite map_length, ?Wb1, ?Wa1, map_length; auto].
        destruct I as [I|I]; [exists "p"%string; auto|]. rewrite <- (app_nil_r (repeat false _ ++ _)), <- (app_nil_r (dnames (fst za) "d")) in I.
        apply combine_mask in I; [|unfold dnames; rewrite map_length, ?Wb1, ?Wa1, map_length; auto|unfold dnames; rewrite map_length, ?Wb1, ?Wa1, map_length; auto].
        destruct I as [I|[]]. exists "d"%string; auto. }
      destruct In_a as (s & Hs & Ia). unfold dnames in Ia. rewrite Wa1, map_map in Ia. apply in_map_iff in Ia as (q & Qe & Iqq). cbn [fst snd] in Qe.
      destruct (get q (dw_out w)) as [e0|] eqn:Z.
      + apply (Old e'); auto. rewrite <- Qe. destruct Hs as [-> | ->]; apply (Outs q e0 Z).
      + exists q, (t, k). split.
        * rewrite Wb3, Wa3. unfold missing. rewrite Z. destruct (mem_spec q ins); [reflexivity|tauto].
        * destruct Hs as [-> | ->]; rewrite Qe; auto.
  Qed.

  Variable X : Type.
  Variable fi : X -> info S.
  Variable fs : X -> list role * chan S.
  Definition vgood (p : name * gate X) : Prop := gate_name (fst p) /\
    exists v, i_val (fi (g_op (snd p))) = Ok v /\ gv (places (fst (fs (g_op (snd p)))) ++ places (fst (fs (g_op (snd p))))) v.

  Lemma dsafe_gates Q T : NoDup Q -> forall (l : circ X) K done names w (n : net),
    dwired Q done names (dupto T K) w n -> dsafe Q w n ->
    (forall p, In p l -> g_time (snd p) = T /\ dgood fi fs p /\ incl (g_qubits (snd p)) Q) -> (forall p, In p l -> vgood p) ->
    (forall q, In q Q -> alternating (history (map (@skel S) (done ++ map (xcact fs) l)) q)) ->
    NoDup (keys l) -> (forall x, In x (keys l) -> ~ In x names) ->
    exists w' n', dens_gates K (map_circ fi l) w n = (n', Ok w') /\
      dwired Q (done ++ map (xcact fs) l) (names ++ keys l) (dupto T (K + length l)) w' n' /\ dsafe Q w' n'.
  Proof.
    intros NQ. induction l as [|p l IH]; intros K done names w n W Sf H Hv Alt N Dj; simpl.
    - exists w, n. split; auto. rewrite !app_nil_r, Nat.add_0_r. auto.
    - destruct (H p) as (Tp & (Mp & Nq & Lq) & Ip); [simpl; auto|]. inversion N as [|? ? N1 N2]; subst x l0.
      destruct (Hv p) as (Gn & v & Ev & Gv); [simpl; auto|].
      set (p' := (fst p, map_gate fi (snd p))).
      assert (Alt1 : forall q, In q Q -> alternating (history (map (@skel S) done) q ++ word_at (skel (xcact fs p)) q)).
      { intros q Iq. simpl in Alt. specialize (Alt q Iq). rewrite map_app, history_app in Alt.
        cbn [map] in Alt. rewrite history_cons in Alt. rewrite app_assoc in Alt. apply alternating_app_l in Alt. exact Alt. }
      assert (Nx : ~ In (fst p) names) by (apply Dj; simpl; auto).
      destruct (@dens_step S Q done names (dupto T K) w n K p' (fst (fs (g_op (snd p)))) (snd (fs (g_op (snd p))))) as (w1 & n1 & E1 & W1);
        auto.
      { simpl. rewrite Tp. unfold dupto. lia. }
      pose proof (@dsafe_step Q done names (dupto T K) w n K p' (fst (fs (g_op (snd p)))) (snd (fs (g_op (snd p)))) w1 n1 v
                    W Sf Mp Nq Lq Ip Alt1 Nx Ev Gv Gn E1) as Sf1.
      change (dens_gates K (p' :: map_circ fi l) w n) with ((let! w := dens_gate K p' w in dens_gates (Datatypes.S K) (map_circ fi l) w) n).
      rewrite (@mbind_eq _ _ _ _ _ n n1 w1) by exact E1.
      destruct (IH (Datatypes.S K) (done ++ [xcact fs p]) (names ++ [fst p]) w1 n1) as (w2 & n2 & E2 & W2 & Sf2); auto.
      + eapply dwired_weaken; [| |exact W1].
        * intros x [<-|Ix]; apply in_app_iff; simpl; auto.
        * simpl. rewrite Tp. intros t k. unfold dupto. lia.
      + intros q Iq. simpl in H. apply H; auto.
      + intros q Iq. apply Hv; simpl; auto.
      + intros q Iq. specialize (Alt q Iq). simpl in Alt. rewrite <- app_assoc. exact Alt.
      + intros x Ix Jx. apply in_app_iff in Jx as [Jx|[<-|[]]]; [apply (Dj x); simpl; auto|]. apply N1. exact Ix.
      + exists w2, n2. split; auto. split; auto.
        rewrite <- !app_assoc in W2. simpl in W2. replace (K + Datatypes.S (length l)) with (Datatypes.S (K + length l)) by lia. exact W2.
  Qed.

  Lemma dsafe_times Q : NoDup Q -> forall (L : list (Z * circ X)) done names w (n : net) lim,
    dwired Q done names lim w n -> dsafe Q w n ->
    (forall T l p, In (T, l) L -> In p l -> g_time (snd p) = T /\ dgood fi fs p /\ incl (g_qubits (snd p)) Q) ->
    (forall T l p, In (T, l) L -> In p l -> vgood p) ->
    StronglySorted (fun a b => fst a < fst b)%Z L -> (forall T l t k, In (T, l) L -> lim t k -> (t <= T)%Z) ->
    (forall q, In q Q -> alternating (history (map (@skel S) (done ++ map (xcact fs) (concat (map snd L)))) q)) ->
    NoDup (keys (concat (map snd L))) -> (forall x, In x (keys (concat (map snd L))) -> ~ In x names) ->
    exists w' n' lim', dens_times (map (fun p => (fst p, map_circ fi (snd p))) L) w n = (n', Ok w') /\
      dwired Q (done ++ map (xcact fs) (concat (map snd L))) (names ++ keys (concat (map snd L))) lim' w' n' /\ dsafe Q w' n'.
  Proof.
    intros NQ. induction L as [|[T l] L IH]; intros done names w n lim W Sf H Hv Ss Lm Alt N Dj; simpl.
    - exists w, n, lim. split; auto. rewrite !app_nil_r. auto.
    - simpl in *. inversion Ss as [|? ? S1 F1]; subst. rewrite Forall_forall in F1.
      assert (Ek : keys (l ++ concat (map snd L)) = keys l ++ keys (concat (map snd L))) by apply keys_app.
      rewrite Ek in *. apply NoDup_app_iff in N as (Na & Nb & Nab).
      assert (Em : map (xcact fs) (l ++ concat (map snd L)) = map (xcact fs) l ++ map (xcact fs) (concat (map snd L))) by apply map_app.
      rewrite Em in *.
      destruct (@dsafe_gates Q T NQ l 0 done names w n) as (w1 & n1 & E1 & W1 & Sf1); auto.
      + eapply dwired_weaken; [apply incl_refl| |exact W]. intros t k Hl. left. eapply Lm; eauto.
      + intros p Ip. apply H with (l := l); auto.
      + intros p Ip. apply (Hv T l); auto.
      + intros q Iq. specialize (Alt q Iq). rewrite app_assoc, map_app, history_app in Alt. apply alternating_app_l in Alt. auto.
      + intros x Ix. apply Dj, in_app_iff; auto.
      + rewrite (@mbind_eq _ _ _ _ _ n n1 w1) by exact E1.
        destruct (IH (done ++ map (xcact fs) l) (names ++ keys l) w1 n1 (dupto T (0 + length l))) as (w2 & n2 & lim2 & E2 & W2 & Sf2); auto.
        * intros T' l' p Il Ip. apply H with (l := l'); auto.
        * intros T' l' p Il Ip. apply (Hv T' l'); auto.
        * intros T' l' t k Il Hl. specialize (F1 _ Il). simpl in F1. unfold dupto in Hl. lia.
        * intros q Iq. rewrite <- app_assoc. auto.
        * intros x Ix Jx. apply in_app_iff in Jx as [Jx|Jx]; [|apply (Nab x); auto]. apply (Dj x); auto. apply in_app_iff; auto.
        * exists w2, n2, lim2. split; auto. rewrite <- !app_assoc in W2. auto.
  Qed.
  Lemma gate_tup x : gate_name x -> (exists t qs, x = NT [NI t; NT qs] /\ tup x = [NI t; NT qs]) \/ (exists s, x = NS s /\ tup x = [NS s]).
  Proof. intros [(t & qs & ->)|(s & -> & _)]; [left|right]; eauto. Qed.
  Lemma core_dens Q w (n : net) os : StronglySorted (below name_lt) Q -> dsafe Q w n -> incl os (keys (edges n)) ->
    (forall q e0, get q (dw_in w) = Some e0 -> In (dname e0 q "p") os /\ In (dname e0 q "d") os) ->
    core (VNet (with_opens n os)) /\ thin (VNet (with_opens n os)).
  Proof.
    intros SQ [Bn Nf Vals Nms Eds Outs Ins Dd] Io Il. set (n' := with_opens n os).
    assert (R : regular n') by (apply base_regular; auto).
    split; [|constructor; [apply no_fixes_one; exact Nf|intros x nd v G V; apply (Vals x nd v G V)]].
    constructor; auto.
    - repeat split.
      + intros I. destruct (Nms _ I) as [(t & qs & E)|(s & E & _)]; discriminate.
      + intros I. destruct (Eds _ I) as (t & q & s & E & _). discriminate.
      + intros a b Ia Ib E. destruct (gate_tup (Nms _ Ia)) as [(t & qs & Ea & Ta)|(s & Ea & Ta)], (gate_tup (Nms _ Ib)) as [(t' & qs' & Eb & Tb)|(s' & Eb & Tb)];
          rewrite Ta, Tb in E; congruence.
      + intros a b Ia Ib E. destruct (Eds _ Ia) as (t & q & s & Ea & _), (Eds _ Ib) as (t' & q' & s' & Eb & _). subst a b. cbn in E. unfold dname. congruence.
    - intros x m Ix _. split.
      + intros y Iy [r E]. destruct (gate_tup (Nms _ Ix)) as [(t & qs & Ea & Ta)|(s & Ea & Ta)], (gate_tup (Nms _ Iy)) as [(t' & qs' & Eb & Tb)|(s' & Eb & Tb)];
          rewrite Ta, Tb in E; cbn in E; congruence.
      + intros e r Ie E. destruct (Eds _ Ie) as (t' & q' & s' & Eb & _). rewrite Eb in E.
        destruct (gate_tup (Nms _ Ix)) as [(t & qs & Ea & Ta)|(s & Ea & Ta)]; rewrite Ta in E; unfold dname in E; cbn in E; congruence.
    - assert (HL : forall a, net_leg n' (keys (nodes n')) a -> exists t q s, a = dname t q s /\ In q Q).
      { intros a (x & nd & m & _ & G & _ & I). apply Eds. apply (wf_legs (proj1 (bs_inv Bn)) x _ G); auto. }
      intros a b Ha Hb. destruct (HL a Ha) as (t & q & s & -> & Iq), (HL b Hb) as (t' & q' & s' & -> & Iq'). eapply dname_lt; eauto.
    - intros P D e Pe. assert (D' : dead P n) by (destruct D as [D1 D2 D3]; constructor; auto).
      destruct (Dd P D' e Pe) as (q & e0 & G & Hp). destruct (Il q e0 G) as [I1 I2]. destruct Hp as [Hp|Hp]; eauto.
    - intros x nd v G V. apply (Vals x nd v G V).
  Qed.

  Theorem dens_net_gv (c : circ X) Q v :
    Forall (dgood fi fs) c -> (forall p, In p c -> vgood p) -> NoDup (keys c) -> all_qubits c = Ok Q ->
    apart_ok (map_circ (fs0 fs) c) -> alt_ok (map_circ (fs0 fs) c) ->
    let gs := map (xcact fs) (in_order c) in
    let M := repeat false (length (wires_out Q (map (@skel S) gs))) ++ repeat true (length (wires_in Q (map (@skel S) gs))) in
    dens_net (map_circ fi c) = Ok v -> gv (M ++ M) v /\ named v.
  Proof.
    intros G Vg N AQ Ap Al gs M Run.
    destruct (all_qubits_spec _ AQ) as (NQ & SQ & MQ).
    assert (Ok1 := dgood_ok G).
    assert (Shp := circ_shape_spec Ok1).
    assert (AQ' : all_qubits (map_circ (fs0 fs) c) = Ok Q) by (rewrite all_qubits_map; auto).
    assert (Valid : is_ok (circ_shape (map_circ (@i_shape S) (map_circ fi c))) = Ok true).
    { rewrite (dgood_shapes G). destruct (circ_shape (shapes (map_circ (fs0 fs) c))) as [sh|[]]; try tauto; simpl; auto. congruence. }
    unfold dens_net in Run. rewrite Valid in Run. cbn [bind negb] in Run.
    assert (Etl : concat (map snd (by_time c)) = in_order c) by reflexivity.
    assert (Hgood : forall p, In p c -> dgood fi fs p) by (apply Forall_forall; auto).
    assert (Hinc : forall p, In p c -> incl (g_qubits (snd p)) Q).
    { intros p Ip q Iq. apply MQ, qubits_In. eauto. }
    assert (Alt : forall q, alternating (history (map (@skel S) gs) q)).
    { intros q. unfold gs. rewrite (skel_acts fs), <- in_order_map. specialize (Al q). unfold circ_acts in Al.
      unfold tacts. rewrite map_map. exact Al. }
    destruct (@dsafe_times Q NQ (by_time c) [] [] (DWires [] []) empty_tn (fun _ _ => False)) as (w & n & lim & E & W & Sf).
    { constructor; simpl.
      - exists (fun q => q), (fun q => q). split; [apply represents_nil|split; intros q _; simpl; auto].
      - intros ? [].
      - split; [constructor|intros ? []].
      - split; [constructor|intros ? []].
      - intros ? [].
      - intros ? [].
      - constructor. intros ? ? [].
      - intros ? []. }
    { apply dsafe_empty. }
    { intros T l p Il Ip. unfold by_time in Il. apply in_map_iff in Il as (t & Et & It).
      inversion Et; subst. apply at_time_In in Ip as [Ip Tp]. auto. }
    { intros T l p Il Ip. unfold by_time in Il. apply in_map_iff in Il as (t & Et & It).
      inversion Et; subst. apply at_time_In in Ip as [Ip Tp]. auto. }
    { unfold by_time. pose proof (times_sorted c) as H.
      clear -H. induction H as [|x l S1 IH F]; simpl; constructor; auto. rewrite Forall_map. exact F. }
    { tauto. }
    { intros q Iq. rewrite Etl, app_nil_l. apply Alt. }
    { rewrite Etl. eapply Permutation_NoDup; [|exact N]. unfold keys. apply Permutation_map, in_order_perm. }
    { tauto. }
    rewrite Etl, app_nil_l in W. fold gs in W.
    destruct W as [(D & O & R & Hin & Hout) Hon [Ni Ii] [No Io] Hdim _ Hc _].
    set (hs := history (map (@skel S) gs)) in *.
    assert (Ki : filter (fun q => mem q (keys (dw_in w))) Q = wires_in Q (map (@skel S) gs)).
    { apply filter_ext_in. intros q Iq. specialize (Hin q Iq). cbv beta in Hin. fold (hs q) in Hin |- *. apply eq_true_iff_eq.
      rewrite mem_In, <- get_key. unfold missing. destruct (get q (dw_in w)); [destruct Hin as [-> _]; tauto|]. rewrite Hin. split; congruence. }
    assert (Ko : filter (fun q => mem q (keys (dw_out w))) Q = wires_out Q (map (@skel S) gs)).
    { apply filter_ext_in. intros q Iq. specialize (Hout q Iq). cbv beta in Hout. fold (hs q) in Hout |- *. apply eq_true_iff_eq.
      rewrite mem_In, <- get_key. unfold missing. destruct (get q (dw_out w)); [destruct Hout as [-> _]; tauto|]. rewrite Hout. split; congruence. }
    set (wo := wires_out Q (map (@skel S) gs)) in *. set (wi := wires_in Q (map (@skel S) gs)) in *.
    assert (Op : dens_key_order (dw_out w) "p" = Ok (map (fun q => O (ket q)) wo)).
    { rewrite <- Ko. apply dens_key_order_eq; auto. intros q e Iq Ge. specialize (Hout q Iq). rewrite Ge in Hout. symmetry. apply Hout. }
    assert (Od : dens_key_order (dw_out w) "d" = Ok (map (fun q => O (bra q)) wo)).
    { rewrite <- Ko. apply dens_key_order_eq; auto. intros q e Iq Ge. specialize (Hout q Iq). rewrite Ge in Hout. symmetry. apply Hout. }
    assert (Ip : dens_key_order (dw_in w) "p" = Ok (map (fun q => D (ket q)) wi)).
    { rewrite <- Ki. apply dens_key_order_eq; auto. intros q e Iq Ge. specialize (Hin q Iq). rewrite Ge in Hin. symmetry. apply Hin. }
    assert (Id : dens_key_order (dw_in w) "d" = Ok (map (fun q => D (bra q)) wi)).
    { rewrite <- Ki. apply dens_key_order_eq; auto. intros q e Iq Ge. specialize (Hin q Iq). rewrite Ge in Hin. symmetry. apply Hin. }
    unfold build in Run. rewrite by_time_map in Run. rewrite (@mbind_eq _ _ _ _ _ _ n w) in Run by exact E.
    rewrite Op in Run. rewrite (@mbind_eq _ _ _ _ _ _ n _) in Run by reflexivity.
    rewrite Ip in Run. rewrite (@mbind_eq _ _ _ _ _ _ n _) in Run by reflexivity.
    rewrite Od in Run. rewrite (@mbind_eq _ _ _ _ _ _ n _) in Run by reflexivity.
    rewrite Id in Run. rewrite (@mbind_eq _ _ _ _ _ _ n _) in Run by reflexivity. cbn [modify] in Run. injection Run as <-.
    set (os := map (fun q => O (ket q)) wo ++ map (fun q => D (ket q)) wi ++ map (fun q => O (bra q)) wo ++ map (fun q => D (bra q)) wi).
    assert (Wi : forall q e0, get q (dw_in w) = Some e0 -> In q wi /\ D (ket q) = dname e0 q "p" /\ D (bra q) = dname e0 q "d").
    { intros q e0 Ge. assert (Iq : In q Q) by (apply Ii; eapply get_Some_key; eauto). specialize (Hin q Iq). rewrite Ge in Hin. split; [|apply Hin].
      rewrite <- Ki. apply filter_In. split; auto. apply mem_In. eapply get_Some_key; eauto. }
    assert (Wi' : forall q, In q wi -> exists e0, get q (dw_in w) = Some e0).
    { intros q Iq. rewrite <- Ki in Iq. apply filter_In in Iq as [_ Iq]. apply mem_In in Iq. apply key_get in Iq. exact Iq. }
    assert (Wo' : forall q, In q wo -> In (O (ket q)) (keys (edges n)) /\ In (O (bra q)) (keys (edges n))).
    { intros q Iq. rewrite <- Ko in Iq. apply filter_In in Iq as [Iq J]. apply mem_In in J. apply key_get in J as (e0 & J).
      specialize (Hout q Iq). rewrite J in Hout. destruct Hout as (_ & -> & ->). apply (ds_out Sf q J). }
    assert (Cn : core (VNet (with_opens n os)) /\ thin (VNet (with_opens n os))).
    { apply core_dens with (Q := Q) (w := w); auto.
      - intros e Ie. unfold os in Ie. rewrite !in_app_iff, !in_map_iff in Ie.
        destruct Ie as [(q & <- & Iq)|[(q & <- & Iq)|[(q & <- & Iq)|(q & <- & Iq)]]]; try (apply Wo'; auto);
          destruct (Wi' q Iq) as (e0 & Ge); destruct (Wi q e0 Ge) as (_ & Qk & Qb); rewrite ?Qk, ?Qb; apply (ds_in Sf q Ge).
      - intros q e0 Ge. destruct (Wi q e0 Ge) as (Iq & Qk & Qb). rewrite <- Qk, <- Qb. unfold os. rewrite !in_app_iff.
        split; [right; left|right; right; right]; apply in_map_iff; exists q; auto. }
    split.
    2:{ split; [apply (ds_names Sf)|]. right. intros e Ie. destruct (ds_edges Sf e Ie) as (t & q & s & -> & _). eexists. split; [reflexivity|]. simpl. lia. }
    split; [apply Cn|]. split; [apply Cn|].
    intros P DP e Pe. cbn [opens with_opens]. assert (D' : dead P n) by (destruct DP as [D1 D2 D3]; constructor; auto).
    destruct (ds_dead Sf D' e Pe) as (q & e0 & Ge & Hp). destruct (Wi q e0 Ge) as (Iq & Qk & Qb).
    destruct Hp as [Hp|Hp]; eexists; (split; [exact Hp|]); rewrite <- ?Qk, <- ?Qb; unfold M, os; apply mask_combine; rewrite ?map_length; auto.
    - left. apply in_map_iff; exists q; auto.
    - right. rewrite <- (app_nil_r (repeat false _ ++ _)), <- (app_nil_r (map (fun q => D (bra q)) wi)). apply mask_combine; rewrite ?map_length; auto.
      left. apply in_map_iff; exists q; auto.
  Qed.
End CoreDens.
