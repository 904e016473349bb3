(** The network of a pure circuit contracts when the tensors of its gates do. *)
From Coq Require Import Sorting.Permutation Sorting.Sorted.
From Verif Require Import Base Scalar NetSpec Sums NetAlg ModelArray ModelTN TNInv TNOps TNSpec TNMerge TNDelta ModelHist TNHist TNValue
  TNValue2 TNExact TNEdit TNEdit2 ModelVal ModelOps OpsSpec OpsProofs OpsValue ModelNest NestSpec NestExp NestSound ModelContract ModelDeep DeepSpec
  ContractExec NameOrder CircSpec CircSum CircOrder ModelCircuit CircSem CircShape
  CircWire CircStep CircNet DensSpec CircDens CircDensNet CoreVal CoreSpec CoreNet CoreOps CoreDens.
Set Implicit Arguments.
Local Open Scope nat_scope.

Section CorePure.
  Variable S : scalar.
  Notation tval := (tval S).
  Notation net := (tn tval).

  Lemma base_edges (n : net) l : base n -> NoDup (keys (edges n) ++ l) -> ~ In NN l -> base (with_edges n (edges n ++ map two_edge l)).
  Proof.
    revert n. induction l as [|e l IH]; intros n B N NL; simpl; [rewrite app_nil_r, with_edges_same; auto|].
    assert (Ne : ~ In e (keys (edges n))) by (intros I; apply (NoDup_remove_2 _ _ _ N); apply in_app_iff; auto).
    assert (Ee : e <> NN) by (intros ->; apply NL; simpl; auto).
    pose proof (@add_edge_fresh tval e (Some 2) n Ne Ee) as A. set (n1 := with_edges n (edges n ++ [(e, Edge (Some 2) None)])) in *.
    assert (Ge : forall a, In a (keys (edges n)) -> edim n1 a = edim n a).
    { intros a I. unfold edim, n1. simpl. rewrite get_app. destruct (key_get _ _ I) as [ed ->]. auto. }
    assert (B1 : base n1).
    { destruct B as [I F Sz O D]. constructor; auto.
      - apply (@call_inv tval _ (CAddEdge e (Some 2)) n n1); [exact Logic.I| |exact I]. unfold succeeds. cbn [do_call]. unfold drop. rewrite (@mbind_eq _ _ _ _ _ n n1 _ A). reflexivity.
      - intros a ad fx G. unfold n1 in G. simpl in G. rewrite get_app in G. destruct (get a (edges n)) as [ad'|] eqn:Ga; [injection G as <-; eauto|].
        simpl in G. destruct (eqb a e); [|discriminate]. injection G as <-. discriminate.
      - intros x nd G. destruct (Sz x nd G) as (t & Et & Sh & Kn). exists t. split; auto.
        assert (L : forall a, In a (n_legs nd) -> edim n1 a = edim n a) by (intros a Ia; apply Ge; apply (wf_legs (proj1 I) x _ G); auto).
        split; [rewrite Sh; f_equal; apply map_ext_in; intros a Ia; symmetry; auto|intros a Ia; rewrite L; auto].
      - intros a Ia. unfold n1 in Ia. simpl in Ia. rewrite keys_app, in_app_iff in Ia. destruct Ia as [Ia|[<-|[]]]; [rewrite Ge; auto|].
        unfold edim, n1. simpl. rewrite get_app. rewrite (proj2 (get_None _ _) Ne). simpl. rewrite eqb_refl. auto. }
    specialize (IH n1 B1). unfold n1 in IH. simpl in IH. rewrite <- app_assoc in IH. apply IH.
    - rewrite keys_app, <- app_assoc. exact N.
    - simpl in NL; tauto.
  Qed.
  Lemma base_fix (n n' : net) e k : base n -> fix_edge e [k] false n = (n', Ok tt) ->
    base n' /\ nodes n' = nodes n /\ keys (edges n') = keys (edges n) /\ is_fixed n' e = true /\ (forall a, is_fixed n a = true -> is_fixed n' a = true) /\
    (fix_one n -> fix_one n').
  Proof.
    intros [I F Sz O D] E. assert (E' := E). apply fix_edge_values in E as (ed & ed' & G & En & Ed & Ev & Ef).
    assert (K : keys (edges n') = keys (edges n)).
    { rewrite En. simpl. rewrite keys_set. rewrite (proj2 (has_In _ _) (get_Some_key _ _ G)). auto. }
    assert (Dm : forall a, edim n' a = edim n a) by (intros a; apply (@fix_edge_edim _ e [k] n n' tt); auto).
    assert (Nf : NoDup (edge_values ed')).
    { rewrite Ev. apply NoDup_filter. eapply edge_values_nodup; eauto. }
    split; [|split; [rewrite En; auto|split; [auto|split; [|split]]]].
    - constructor.
      + apply (@call_inv tval _ (CFixEdge e [k] false) n n'); auto. simpl. exact Logic.I.
      + intros a ad fx. rewrite En. simpl. rewrite get_set. destruct (eqb_spec a e) as [->|]; [|apply F]. intros Q. injection Q as <-. rewrite Ef. intros Q. injection Q as <-. auto.
      + intros x nd Gx. rewrite En in Gx. simpl in Gx. destruct (Sz x nd Gx) as (t & Et & Sh & Kn). exists t. split; auto.
        rewrite (map_ext _ _ Dm). split; auto. intros a Ia. rewrite Dm. auto.
      + rewrite En. auto.
      + intros a Ia. rewrite Dm. apply D. rewrite <- K. auto.
    - unfold is_fixed. rewrite En. simpl. rewrite get_set, eqb_refl, Ef. auto.
    - intros a. unfold is_fixed. rewrite En. simpl. rewrite get_set. destruct (eqb a e); auto. rewrite Ef. auto.
    - intros H a ad fx. rewrite En. simpl. rewrite get_set. destruct (eqb_spec a e) as [->|]; [|apply H]. intros Q. injection Q as <-. rewrite Ef. intros Q. injection Q as <-.
      rewrite Ev in *. clear -Nf. set (l := filter _ _) in *. assert (H : incl l [k]).
      { intros x Ix. unfold l in Ix. apply filter_In in Ix as [_ Ix]. apply mem_In in Ix. exact Ix. }
      change 1 with (length [k]). apply NoDup_incl_length; auto.
  Qed.
  (** a set that is dead when edges are added or fixed was dead before *)
  Lemma dead_edges (n n' : net) P : base n -> nodes n' = nodes n -> (forall e, In e (keys (edges n)) -> is_fixed n e = true -> is_fixed n' e = true) ->
    dead P n' -> dead (fun e => P e /\ In e (keys (edges n))) n.
  Proof.
    intros B En Hf [D1 D2 D3]. rewrite En in *. constructor.
    - intros e [Pe Ie]. split; auto. destruct (is_fixed n e) eqn:Q; auto. destruct (D1 e Pe) as [_ Q']. rewrite Hf in Q'; auto.
    - intros y nd e G Nv Ie [Pe _]. eapply (D2 y nd e); eauto.
    - intros y nd m G V. destruct (D3 y nd m G V) as (Q & DQ & F2). exists Q. split; auto.
      assert (L : forall e, In e (n_legs nd) -> In e (keys (edges n))) by (intros e Ie; apply (wf_legs (proj1 (bs_inv B)) y _ G); auto).
      clear - F2 L. induction F2 as [|e o la lb H1 H2 IH]; constructor.
      + split; [intros [Pe _]; apply H1; auto|intros Qo; split; [apply H1; auto|apply L; simpl; auto]].
      + apply IH. intros e' Ie. apply L; simpl; auto.
  Qed.

  Record csafe (Q : list name) (w : wires) (n : net) : Prop := {
    cs_base : base n;
    cs_one : fix_one n;
    cs_vals : forall x nd v, get x (nodes n) = Some nd -> n_val nd = Some v -> core v /\ thin v;
    cs_names : forall x, In x (keys (nodes n)) -> gate_name x;
    cs_edges : forall e, In e (keys (edges n)) -> exists t k q, e = NT [NI t; NI k; q] /\ In q Q;
    cs_dead : forall P, dead P n -> forall e, P e -> exists q e0, get q (w_in w) = Some e0 /\ P e0
  }.
  Lemma fresh_of_spec es : forall all, NoDup (fresh_of all es) /\ forall e, In e (fresh_of all es) <-> In e es /\ ~ In e all.
  Proof.
    induction es as [|e es IH]; intros all; simpl; [split; [constructor|tauto]|]. destruct (mem_spec e all) as [I|I].
    - destruct (IH all) as [N H]. split; auto. intros x. rewrite H. split; [tauto|]. intros [[<-|J] K]; tauto.
    - destruct (IH (e :: all)) as [N H]. split.
      + constructor; auto. rewrite H. simpl. tauto.
      + intros x. simpl. rewrite H. simpl. destruct (eqb_spec e x) as [->|Ne]; tauto.
  Qed.
  Lemma csafe_empty Q : csafe Q (Wires [] [] []) empty_tn.
  Proof.
    constructor; simpl; try discriminate; try tauto; try apply base_empty.
    - intros P [D1 _ _] e Pe. destruct (D1 e Pe) as [[] _].
  Qed.

  Lemma csafe_step Q done names lim w (n : net) k (p : name * gate (info S)) sh a w' n' :
    wired Q done names lim w n -> csafe Q w n ->
    means (g_op (snd p)) sh a -> NoDup (g_qubits (snd p)) -> length (g_qubits (snd p)) = length sh ->
    incl (g_qubits (snd p)) Q ->
    (forall q, In q Q -> alternating (word_at (Act (g_qubits (snd p)) (map role_word sh) a) q ++ history done q)) ->
    ~ In (fst p) names -> gate_name (fst p) -> (i_fix (g_op (snd p)) = None -> exists v, i_val (g_op (snd p)) = Ok v /\ gv (places sh) v) ->
    wire_gate k p w n = (n', Ok w') -> csafe Q w' n'.
  Proof.
    intros [(D & O & R & Hin & Hout) [Ni Ii] [No Io] Hall Hdim Hnames Hcpl Hedges] [Bn One Vals Nms Eds Dd] M Nq Lq Iq Alt Nx Gn Gv Run.
    set (g := snd p) in *. set (A := Act (g_qubits g) (map role_word sh) a) in *.
    set (t := g_time g) in *. destruct M as [Msh M].
    assert (Nouts : NoDup (act_outs A)) by (apply NoDup_filter; auto).
    assert (Nins : NoDup (act_ins A)) by (apply NoDup_filter; auto).
    assert (IoQ : forall q, In q (act_outs A) -> In q Q) by (intros q X; apply Iq; apply (act_outs_on A q X)).
    assert (IiQ : forall q, In q (act_ins A) -> In q Q) by (intros q X; apply Iq; apply (act_ins_on A q X)).
    pose proof (@wire_outs_spec t k (act_outs A) w Nouts) as (Wa1 & Wa2 & Wa3 & Wa4 & Wa5 & Wa6).
    set (za := wire_outs t k (act_outs A) w) in *.
    pose proof (@wire_ins_spec t k (act_ins A) (snd za) Nins) as (Wb1 & Wb2 & Wb3 & Wb4 & Wb5).
    set (zb := wire_ins t k (act_ins A) (snd za)) in *.
    set (es := fst za ++ fst zb).
    assert (Wk : forall q e0, get q (w_in w) = Some e0 -> In e0 (keys (edges n))).
    { intros q e0 Ge. assert (Iq0 : In q Q) by (apply Ii; eapply get_Some_key; eauto). rewrite (Hin q Iq0) in Ge.
      destruct (starts_in (history done q)) eqn:Z; [|discriminate]. injection Ge as <-. rewrite <- (keys_tn_dom n). apply (rep_D R); auto. }
    (* a qubit that is read and not written is not read later without being written *)
    assert (New : forall q, In q (act_ins A) -> ~ In q (act_outs A) -> get q (w_in w) = None).
    { intros q X Z. rewrite (Hin q (IiQ q X)). destruct (history done q) as [|c h] eqn:Hq; auto.
      apply act_ins_iff in X. rewrite act_outs_iff in Z.
      assert (Y : starts_in (c :: h) = ends_out (word_at A q)).
      { apply alternating_meet; [|congruence|]. { destruct (word_at A q); [discriminate|congruence]. }
        rewrite <- Hq. apply Alt. apply IiQ, act_ins_iff. auto. }
      rewrite Y. destruct (ends_out (word_at A q)); [tauto|auto]. }
    assert (Ees : forall e, In e es -> exists t k q, e = NT [NI t; NI k; q] /\ In q Q).
    { intros e Ie. unfold es in Ie. rewrite in_app_iff, Wa1, Wb1, !in_map_iff in Ie. destruct Ie as [(q & <- & I)|(q & <- & I)].
      - destruct (get q (w_in w)) as [e0|] eqn:Ge; [apply Eds; eauto|]. unfold e_out. eauto 6.
      - unfold e_in. eauto 6. }
    assert (NNes : ~ In NN es) by (intros I; destruct (Ees _ I) as (? & ? & ? & E & _); discriminate).
    assert (Hall2 : forall e, In e (w_all (snd zb)) <-> In e (keys (edges n))) by (rewrite Wb4, Wa4; auto).
    destruct (@new_wires_spec S es (snd zb) n NNes Hall2) as (w1 & Enew & Hw1 & Hw2 & Hw3).
    set (fr := fresh_of (w_all (snd zb)) es) in *. set (n1 := with_edges n (edges n ++ map two_edge fr)) in Enew.
    assert (Fr : NoDup fr /\ (forall e, In e fr <-> In e es /\ ~ In e (keys (edges n)))).
    { destruct (fresh_of_spec es (w_all (snd zb))) as [H1 H2]. split; auto. intros e. unfold fr. rewrite H2, Hall2. tauto. }
    destruct Fr as [Nfr Ifr].
    assert (B1 : base n1).
    { apply base_edges; auto.
      - apply NoDup_app_iff. split; [apply (wf_edges (proj1 (bs_inv Bn)))|]. split; auto. intros x X Y. apply Ifr in Y. tauto.
      - intros I. apply Ifr in I. tauto. }
    assert (K1 : forall e, In e (keys (edges n1)) <-> In e (keys (edges n)) \/ In e es).
    { intros e. unfold n1. simpl. rewrite keys_app, keys_two, in_app_iff, Ifr. destruct (mem_spec e (keys (edges n))); tauto. }
    assert (F1 : forall e, is_fixed n1 e = is_fixed n e).
    { intros e. unfold n1, is_fixed. simpl. rewrite get_app. destruct (get e (edges n)) as [ed|] eqn:Ge; auto.
      destruct (get e (map two_edge fr)) as [ed|] eqn:G2; auto. rewrite (two_unfixed _ _ G2). auto. }
    assert (O1 : fix_one n1).
    { intros e ed fx G. unfold n1 in G. simpl in G. rewrite get_app in G. destruct (get e (edges n)) as [ed0|] eqn:Ge.
      - injection G as <-. eapply One; eauto.
      - rewrite (two_unfixed _ _ G). discriminate. }
    assert (Keep : forall q e0, ~ In q (act_outs A) -> get q (w_in w) = Some e0 -> get q (w_in w1) = Some e0).
    { intros q e0 Z Ge. rewrite Hw1, Wb2, Wa2. destruct (mem_spec q (act_ins A)) as [I|_].
      - rewrite (New q I Z) in Ge. discriminate.
      - destruct (mem_spec q (act_outs A)); [tauto|auto]. }
    assert (Gone : forall q e0, In q (act_outs A) -> get q (w_in w) = Some e0 -> In e0 (fst za)).
    { intros q e0 I Ge. rewrite Wa1. apply in_map_iff. exists q. rewrite Ge. auto. }
    assert (Gone1 : forall q, In q (act_ins A) -> get q (w_in w1) = Some (e_in t k q)).
    { intros q I. rewrite Hw1, Wb2. destruct (mem_spec q (act_ins A)); [auto|tauto]. }
    (* the run *)
    unfold wire_gate in Run. fold g in Run. fold t in Run. rewrite Msh in Run.
    rewrite (@mbind_eq _ _ _ _ _ n n sh) in Run by reflexivity.
    assert (Po : pick (g_qubits g) (positions role_out sh) = Ok (act_outs A)).
    { rewrite pick_positions by auto. unfold A. rewrite act_outs_role; auto. }
    assert (Pi : pick (g_qubits g) (positions role_in sh) = Ok (act_ins A)).
    { rewrite pick_positions by auto. unfold A. rewrite act_ins_role; auto. }
    rewrite Po, (@mbind_eq _ _ _ _ _ n n (act_outs A)) in Run by reflexivity.
    rewrite Pi, (@mbind_eq _ _ _ _ _ n n (act_ins A)) in Run by reflexivity.
    fold za in Run. fold zb in Run. fold es in Run. rewrite (@mbind_eq _ _ _ _ _ n n1 w1) in Run by exact Enew.
    (* a computational state or measurement on the edge e *)
    assert (FixCase : forall e kk, (fix_edge e [kk] false ;; ret w1) n1 = (n', Ok w') -> es = [e] ->
      (forall q e0, In q (act_outs A) -> get q (w_in w) = Some e0 -> e0 = e) -> csafe Q w' n').
    { intros e kk E Ee Go. minv E. minvs. destruct (@base_fix n1 n' e kk B1 E0) as (B2 & N2 & K2 & Fe & Fk & T2).
      constructor; auto.
      - rewrite N2. exact Vals.
      - rewrite N2. exact Nms.
      - intros x Ix. rewrite K2 in Ix. apply K1 in Ix as [Ix|Ix]; auto.
      - intros P DP x Px. assert (Ne : ~ P e) by (intros Pe; destruct DP as [D1 _ _]; destruct (D1 e Pe); congruence).
        assert (Ix : In x (keys (edges n))).
        { destruct DP as [D1 _ _]. destruct (D1 x Px) as [Ix _]. rewrite K2 in Ix. apply K1 in Ix as [Ix|Ix]; auto. rewrite Ee in Ix. destruct Ix as [<-|[]]. tauto. }
        assert (DP' : dead (fun e => P e /\ In e (keys (edges n))) n).
        { eapply (@dead_edges n n'); [exact Bn|rewrite N2; reflexivity| |exact DP]. intros y _ Fy. apply Fk. rewrite F1. auto. }
        destruct (Dd _ DP' x (conj Px Ix)) as (q & e0 & Ge & Pe & _). exists q, e0. split; auto. apply Keep; auto.
        intros I. rewrite (Go q e0 I Ge) in Pe. auto. }
    destruct (i_fix (g_op g)) as [[[] kk]|] eqn:Fx.
    - destruct M as (Esh & _ & _).
      assert (Oq : exists q, act_outs A = [q] /\ act_ins A = []).
      { unfold A. rewrite act_outs_role, act_ins_role by auto. rewrite Esh in *. destruct (g_qubits g) as [|q [|]]; simpl in Lq; try discriminate. exists q. auto. }
      destruct Oq as (q & Oq & Iq').
      assert (Ez : exists e, fst za = [e]) by (rewrite Wa1, Oq; simpl; eauto). destruct Ez as [e Ez].
      assert (Ez' : fst zb = []) by (rewrite Wb1, Iq'; auto).
      rewrite Ez in Run. simpl hd_res in Run. rewrite (@mbind_eq _ _ _ _ _ n1 n1 e) in Run by reflexivity.
      apply (FixCase e kk Run).
      + unfold es. rewrite Ez, Ez'. auto.
      + intros q0 e0 I Ge. pose proof (Gone q0 e0 I Ge) as J. rewrite Ez in J. destruct J as [J|[]]; auto.
    - destruct M as (Esh & _ & _).
      assert (Oq : exists q, act_outs A = [] /\ act_ins A = [q]).
      { unfold A. rewrite act_outs_role, act_ins_role by auto. rewrite Esh in *. destruct (g_qubits g) as [|q [|]]; simpl in Lq; try discriminate. exists q. auto. }
      destruct Oq as (q & Oq & Iq').
      assert (Ez : fst za = []) by (rewrite Wa1, Oq; auto).
      assert (Ez' : fst zb = [e_in t k q]) by (rewrite Wb1, Iq'; auto).
      rewrite Ez' in Run. simpl hd_res in Run. rewrite (@mbind_eq _ _ _ _ _ n1 n1 (e_in t k q)) in Run by reflexivity.
      apply (FixCase (e_in t k q) kk Run).
      + unfold es. rewrite Ez, Ez'. auto.
      + intros q0 e0 I. rewrite Oq in I. destruct I.
    - destruct M as (v & Ev & Cv & Esh & _). destruct (Gv eq_refl) as (v' & Ev' & G). rewrite Ev in Ev'. injection Ev' as <-.
      rewrite Ev in Run. rewrite (@mbind_eq _ _ _ _ _ n1 n1 v) in Run by reflexivity.
      assert (Lza : length (fst za) = count role_out sh) by (rewrite Wa1, map_length; unfold A; apply act_outs_count; auto).
      assert (Lzb : length (fst zb) = count role_in sh) by (rewrite Wb1, map_length; unfold A; apply act_ins_count; auto).
      destruct (@base_add S n1 (fst p) es v) as (n2 & E2 & B2 & Ad); auto.
      { unfold es. rewrite app_length, Lza, Lzb. auto. }
      rewrite (@mbind_eq _ _ _ _ _ n1 n2 (fst p)) in Run by exact E2. inversion Run; subst w' n'. clear Run.
      destruct G as (Gc & Gt & Gr).
      constructor; auto.
      + apply (ad_one Ad); auto.
      + intros x nd u Gx V. destruct (nodes_added x Ad Gx V) as [G'|(-> & -> & _)]; [apply (Vals x nd u G' V)|auto].
      + intros x Ix. rewrite (ad_nodes Ad), keys_app, in_app_iff in Ix. destruct Ix as [Ix|[<-|[]]]; auto.
      + intros e Ie. apply (ad_edges Ad) in Ie as [Ie|Ie]; auto. apply K1 in Ie as [Ie|Ie]; auto.
      + intros P DP.
        assert (Leg : forall e, In e es -> P e -> exists q e0, get q (w_in w1) = Some e0 /\ P e0).
        { intros e Ie Pe. destruct (@grounded_leg S n2 P (fst p) (Node es true (Some v)) v (places sh) e DP) as (e' & Pe' & I); auto.
          - rewrite (ad_nodes Ad), get_app. destruct (get (fst p) (nodes n1)) eqn:Gx; [exfalso; apply (ad_new Ad); eapply get_Some_key; eauto|].
            simpl. rewrite eqb_refl. auto.
          - cbn [n_legs] in I. unfold es, places in I. rewrite <- (app_nil_r (repeat false _ ++ _)), <- (app_nil_r (fst zb)) in I.
            apply combine_mask in I; auto. destruct I as [I|[]]. rewrite Wb1 in I. apply in_map_iff in I as (q & <- & I). exists q, (e_in t k q). auto. }
        intros e Pe. assert (Ie := Pe). destruct DP as [D1 D2 D3]. apply D1 in Ie as [Ie _]. apply (ad_edges Ad) in Ie as [Ie|Ie]; [|eauto].
        apply K1 in Ie as [Ie|Ie]; [|eauto].
        assert (DP' : dead (fun e => P e /\ In e (keys (edges n))) n).
        { assert (DP1 : dead P n2) by (constructor; auto). pose proof (dead_before B1 Ad DP1) as DP2.
          assert (DP3 := @dead_edges n n1 _ Bn eq_refl (fun y _ Fy => eq_trans (F1 y) Fy) DP2).
          destruct DP3 as [U1 U2 U3]. constructor.
          - intros y [Py Iy]. apply U1. split; auto. split; auto. apply K1; auto.
          - intros y nd z Gy Nv Iz [Pz Jz]. apply (U2 y nd z Gy Nv Iz). split; auto. split; auto. apply K1; auto.
          - intros y nd m Gy V. destruct (U3 y nd m Gy V) as (Qm & DQ & F2). exists Qm. split; auto. clear -F2 K1.
            induction F2 as [|z o la lb H1 H2 IH]; constructor; auto. rewrite <- H1. specialize (K1 z). tauto. }
        destruct (Dd _ DP' e (conj Pe Ie)) as (q & e0 & Ge & Pe0 & _).
        destruct (mem_spec q (act_outs A)) as [I|I]; [|exists q, e0; auto].
        apply (Leg e0); auto. unfold es. apply in_app_iff. left. eauto.
  Qed.

  Variable X : Type.
  Variable fi : X -> info S.
  Variable fs : X -> list role * ampl S.
  Definition pgood (p : name * gate X) : Prop := gate_name (fst p) /\
    (i_fix (fi (g_op (snd p))) = None -> exists v, i_val (fi (g_op (snd p))) = Ok v /\ gv (places (fst (fs (g_op (snd p))))) v).

  Lemma csafe_gates Q T : NoDup Q -> forall (l : circ X) K done names w (n : net),
    wired Q done names (upto T K) w n -> csafe Q w n ->
    (forall p, In p l -> g_time (snd p) = T /\ good fi fs p /\ incl (g_qubits (snd p)) Q) -> (forall p, In p l -> pgood p) ->
    (forall q, In q Q -> alternating (history (rev (map (xact fs) l) ++ done) q)) ->
    NoDup (keys l) -> (forall x, In x (keys l) -> ~ In x names) ->
    exists w' n', wire_gates K (map_circ fi l) w n = (n', Ok w') /\
      wired Q (rev (map (xact fs) l) ++ done) (names ++ keys l) (upto T (K + length l)) w' n' /\ csafe Q w' n'.
  Proof.
    intros NQ. induction l as [|p l IH]; intros K done names w n W Sf H Hv Alt N Dj; simpl.
    - exists w, n. split; auto. rewrite app_nil_r, Nat.add_0_r. auto.
    - destruct (H p) as (Tp & (Mp & Nq & Lq) & Ip); [simpl; auto|]. inversion N as [|? ? N1 N2]; subst x l0.
      destruct (Hv p) as (Gn & Gv); [simpl; auto|].
      set (p' := (fst p, map_gate fi (snd p))).
      assert (Alt1 : forall q, In q Q -> alternating (word_at (xact fs p) q ++ history done q)).
      { intros q Iq. simpl in Alt. specialize (Alt q Iq). rewrite <- app_assoc in Alt. simpl in Alt. rewrite history_app in Alt.
        apply alternating_app_r in Alt. exact Alt. }
      assert (Nx : ~ In (fst p) names) by (apply Dj; simpl; auto).
      destruct (@wire_step S Q done names (upto T K) w n K p' (fst (fs (g_op (snd p)))) (snd (fs (g_op (snd p))))) as (w1 & n1 & E1 & W1);
        auto.
      { simpl. rewrite Tp. unfold upto. lia. }
      pose proof (@csafe_step Q done names (upto T K) w n K p' (fst (fs (g_op (snd p)))) (snd (fs (g_op (snd p)))) w1 n1
                    W Sf Mp Nq Lq Ip Alt1 Nx Gn Gv E1) as Sf1.
      change (wire_gates K (p' :: map_circ fi l) w n) with ((let! w := wire_gate K p' w in wire_gates (Datatypes.S K) (map_circ fi l) w) n).
      rewrite (@mbind_eq _ _ _ _ _ n n1 w1) by exact E1.
      destruct (IH (Datatypes.S K) (xact fs p :: done) (names ++ [fst p]) w1 n1) as (w2 & n2 & E2 & W2 & Sf2); auto.
      + eapply wired_weaken; [| |exact W1].
        * intros x [<-|Ix]; apply in_app_iff; simpl; auto.
        * simpl. rewrite Tp. intros t k. unfold upto. lia.
      + intros q Iq. simpl in H. apply H; auto.
      + intros q Iq. apply Hv; simpl; auto.
      + intros q Iq. specialize (Alt q Iq). simpl in Alt. rewrite <- app_assoc in Alt. exact Alt.
      + intros x Ix Jx. apply in_app_iff in Jx as [Jx|[<-|[]]]; [apply (Dj x); simpl; auto|]. apply N1. exact Ix.
      + exists w2, n2. split; auto. split; auto. rewrite <- app_assoc. simpl.
        rewrite <- app_assoc in W2. simpl in W2. replace (K + Datatypes.S (length l))%nat with (Datatypes.S (K + length l)) by lia. exact W2.
  Qed.

  Lemma csafe_times Q : NoDup Q -> forall (L : list (Z * circ X)) done names w (n : net) lim,
    wired Q done names lim w n -> csafe Q w n ->
    (forall T l p, In (T, l) L -> In p l -> g_time (snd p) = T /\ good fi fs p /\ incl (g_qubits (snd p)) Q) ->
    (forall T l p, In (T, l) L -> In p l -> pgood p) ->
    StronglySorted (fun a b => fst b < fst a)%Z L -> (forall T l t k, In (T, l) L -> lim t k -> (T < t)%Z) ->
    (forall q, In q Q -> alternating (history (rev (map (xact fs) (concat (map snd L))) ++ done) q)) ->
    NoDup (keys (concat (map snd L))) -> (forall x, In x (keys (concat (map snd L))) -> ~ In x names) ->
    exists w' n' lim', wire_times (map (fun p => (fst p, map_circ fi (snd p))) L) w n = (n', Ok w') /\
      wired Q (rev (map (xact fs) (concat (map snd L))) ++ done) (names ++ keys (concat (map snd L))) lim' w' n' /\ csafe Q w' n'.
  Proof.
    intros NQ. induction L as [|[T l] L IH]; intros done names w n lim W Sf H Hv Ss Lm Alt N Dj; simpl.
    - exists w, n, lim. split; auto. rewrite app_nil_r. auto.
    - simpl in *. inversion Ss as [|? ? S1 F1]; subst. rewrite Forall_forall in F1.
      assert (Ek : keys (l ++ concat (map snd L)) = keys l ++ keys (concat (map snd L))) by apply keys_app.
      rewrite Ek in *. apply NoDup_app_iff in N as (Na & Nb & Nab).
      rewrite map_app, rev_app_distr, <- app_assoc in *.
      destruct (@csafe_gates Q T NQ l 0 done names w n) as (w1 & n1 & E1 & W1 & Sf1); auto.
      + eapply wired_weaken; [apply incl_refl| |exact W]. intros t k Hl. left. eapply Lm; eauto.
      + intros p Ip. apply H with (l := l); auto.
      + intros p Ip. apply (Hv T l); auto.
      + intros q Iq. specialize (Alt q Iq). rewrite history_app in Alt. apply alternating_app_r in Alt. auto.
      + intros x Ix. apply Dj, in_app_iff; auto.
      + rewrite (@mbind_eq _ _ _ _ _ n n1 w1) by exact E1.
        destruct (IH (rev (map (xact fs) l) ++ done) (names ++ keys l) w1 n1 (upto T (0 + length l))) as (w2 & n2 & lim2 & E2 & W2 & Sf2); auto.
        * intros T' l' p Il Ip. apply H with (l := l'); auto.
        * intros T' l' p Il Ip. apply (Hv T' l'); auto.
        * intros T' l' t k Il Hl. specialize (F1 _ Il). simpl in F1. unfold upto in Hl. lia.
        * intros x Ix Jx. apply in_app_iff in Jx as [Jx|Jx]; [|apply (Nab x); auto]. apply (Dj x); auto. apply in_app_iff; auto.
        * exists w2, n2, lim2. split; auto. rewrite <- app_assoc in W2. auto.
  Qed.

  Lemma wname_lt Q t k q t' k' q' : StronglySorted (below name_lt) Q -> In q Q -> In q' Q ->
    exists r, name_lt (NT [NI t; NI k; q]) (NT [NI t'; NI k'; q']) = Ok r.
  Proof.
    intros SQ I I'. cbn [name_lt]. destruct (eqb (NI t) (NI t')); [|simpl; eauto]. destruct (eqb (NI k) (NI k')); [|simpl; eauto].
    destruct (eqb_spec q q') as [Qq|Nq]; [simpl; eauto|]. apply (qubits_lt SQ); auto.
  Qed.
  Lemma core_wires Q w (n : net) os : StronglySorted (below name_lt) Q -> csafe Q w n -> incl os (keys (edges n)) ->
    (forall q e0, get q (w_in w) = Some e0 -> In e0 os) ->
    core (VNet (with_opens n os)) /\ thin (VNet (with_opens n os)).
  Proof.
    intros SQ [Bn One Vals Nms Eds Dd] Io Il. set (n' := with_opens n os).
    assert (R : regular n') by (apply base_regular; auto).
    split; [|constructor; [exact One|intros x nd v G V; apply (Vals x nd v G V)]].
    constructor; auto.
    - repeat split.
      + intros I. destruct (Nms _ I) as [(t & qs & E)|(s & E & _)]; discriminate.
      + intros I. destruct (Eds _ I) as (t & q & s & E & _). discriminate.
      + intros a b Ia Ib E. destruct (gate_tup (Nms _ Ia)) as [(t & qs & Ea & Ta)|(s & Ea & Ta)], (gate_tup (Nms _ Ib)) as [(t' & qs' & Eb & Tb)|(s' & Eb & Tb)];
          rewrite Ta, Tb in E; congruence.
      + intros a b Ia Ib E. destruct (Eds _ Ia) as (t & q & s & Ea & _), (Eds _ Ib) as (t' & q' & s' & Eb & _). subst a b. cbn in E. congruence.
    - intros x m Ix _. split.
      + intros y Iy [r E]. destruct (gate_tup (Nms _ Ix)) as [(t & qs & Ea & Ta)|(s & Ea & Ta)], (gate_tup (Nms _ Iy)) as [(t' & qs' & Eb & Tb)|(s' & Eb & Tb)];
          rewrite Ta, Tb in E; cbn in E; congruence.
      + intros e r Ie E. destruct (Eds _ Ie) as (t' & q' & s' & Eb & _). rewrite Eb in E.
        destruct (gate_tup (Nms _ Ix)) as [(t & qs & Ea & Ta)|(s & Ea & Ta)]; rewrite Ta in E; cbn in E; congruence.
    - assert (HL : forall a, net_leg n' (keys (nodes n')) a -> exists t q s, a = NT [NI t; NI q; s] /\ In s Q).
      { intros a (x & nd & m & _ & G & _ & I). apply Eds. apply (wf_legs (proj1 (bs_inv Bn)) x _ G); auto. }
      intros a b Ha Hb. destruct (HL a Ha) as (t & q & s & -> & Iq), (HL b Hb) as (t' & q' & s' & -> & Iq'). eapply wname_lt; eauto.
    - intros P D e Pe. assert (D' : dead P n) by (destruct D as [D1 D2 D3]; constructor; auto).
      destruct (Dd P D' e Pe) as (q & e0 & G & Hp). exists e0. split; auto. apply (Il q e0 G).
    - intros x nd v G V. apply (Vals x nd v G V).
  Qed.

  Theorem circ_net_gv (c : circ X) Q v :
    Forall (good fi fs) c -> Forall (pure_gate fi) c -> (forall p, In p c -> pgood p) -> NoDup (keys c) -> all_qubits c = Ok Q ->
    apart_ok (map_circ fs c) -> alt_ok (map_circ fs c) ->
    let gs := circ_acts (map_circ fs c) in
    circ_net (map_circ fi c) = Ok v ->
    gv (repeat false (length (wires_out Q gs)) ++ repeat true (length (wires_in Q gs))) v /\ named v.
  Proof.
    intros G Pu Vg N AQ Ap Al gs Run.
    destruct (all_qubits_spec _ AQ) as (NQ & SQ & MQ).
    assert (Ok1 := good_ok G).
    assert (Shp := circ_shape_spec Ok1).
    assert (AQ' : all_qubits (map_circ fs c) = Ok Q) by (rewrite all_qubits_map; auto).
    assert (Pure : circ_pure (map_circ fi c) = Ok true).
    { unfold circ_pure. rewrite (good_shapes G).
      destruct (circ_shape (shapes (map_circ fs c))) as [sh|[]]; try tauto; simpl.
      - rewrite (all_pure_ok Pu); auto.
      - congruence. }
    unfold circ_net in Run. rewrite Pure in Run. cbn [bind negb] in Run.
    set (ro := rev_order c) in *.
    assert (Pro : Permutation c ro) by apply rev_order_perm.
    assert (Etl : concat (map snd (rev (by_time c))) = rev ro) by (unfold ro, rev_order; rewrite rev_involutive; auto).
    set (L := tacts (map_circ fs (in_order c))). set (L' := tacts (map_circ fs ro)).
    assert (Egs : gs = map snd L).
    { unfold gs, circ_acts, L, tacts. rewrite in_order_map, map_map. auto. }
    assert (PL : Permutation L L').
    { unfold L, L', tacts, map_circ. do 2 apply Permutation_map. eapply perm_trans; [apply Permutation_sym, in_order_perm|exact Pro]. }
    assert (SL : StronglySorted (@time_le S) L).
    { apply tacts_sorted. rewrite <- in_order_map. apply in_order_sorted. }
    assert (SL' : StronglySorted (@time_le S) L').
    { apply tacts_sorted. unfold ro. pose proof (rev_order_sorted c) as H. revert H. generalize (rev_order c).
      induction 1 as [|p l S1 IH F]; simpl; constructor; auto. unfold map_circ. rewrite Forall_map. exact F. }
    assert (FL : ForallOrdPairs (@same_time_apart S) L).
    { assert (Z : apart_ok (map_circ fs (in_order c))); [|exact Z]. eapply apart_perm; [|exact Ap]. unfold map_circ. apply Permutation_map, in_order_perm. }
    assert (Hh : forall q, history gs q = history (map snd L') q).
    { intros q. rewrite Egs. apply history_time_order; auto. }
    assert (Hgood : forall p, In p c -> good fi fs p) by (apply Forall_forall; auto).
    assert (Hinc : forall p, In p c -> incl (g_qubits (snd p)) Q).
    { intros p Ip q Iq. apply MQ, qubits_In. eauto. }
    destruct (@csafe_times Q NQ (rev (by_time c)) [] [] (Wires [] [] []) empty_tn (fun _ _ => False)) as (w & n & lim & E & W & Sf).
    { constructor; simpl.
      - exists (fun q => q), (fun q => q). split; [apply represents_nil|split; auto].
      - split; [constructor|intros ? []].
      - split; [constructor|intros ? []].
      - tauto.
      - intros ? [].
      - intros ? [].
      - constructor. intros ? ? [].
      - intros ? []. }
    { apply csafe_empty. }
    { intros T l p Il Ip. apply in_rev in Il. unfold by_time in Il. apply in_map_iff in Il as (t & Et & It).
      inversion Et; subst. apply at_time_In in Ip as [Ip Tp]. auto. }
    { intros T l p Il Ip. apply in_rev in Il. unfold by_time in Il. apply in_map_iff in Il as (t & Et & It).
      inversion Et; subst. apply at_time_In in Ip as [Ip Tp]. auto. }
    { unfold by_time. rewrite <- map_rev. pose proof (times_sorted c) as H.
      assert (H' : StronglySorted (fun a b => b < a)%Z (rev (times c))).
      { clear -H. induction H as [|x l S1 IH F]; simpl; [constructor|]. apply sorted_app; auto; [repeat constructor|].
        intros a b Ia [<-|[]]. apply in_rev in Ia. rewrite Forall_forall in F. auto. }
      clear -H'. induction H' as [|x l S1 IH F]; simpl; constructor; auto. rewrite Forall_map. exact F. }
    { tauto. }
    { intros q Iq. rewrite Etl, app_nil_r, map_rev, rev_involutive, xacts. fold L'. rewrite <- Hh. apply Al. }
    { rewrite Etl. eapply Permutation_NoDup; [|exact N]. unfold keys. apply Permutation_map. rewrite <- Permutation_rev. auto. }
    { tauto. }
    rewrite Etl, app_nil_r, map_rev, rev_involutive, xacts in W. fold L' in W.
    destruct W as [(D & O & R & Hin & Hout) [Ni Ii] [No Io] Hall Hdim _ Hc _].
    assert (Ki : forall q, In q Q -> mem q (keys (w_in w)) = starts_in (history (map snd L') q)).
    { intros q Iq. apply eq_true_iff_eq. rewrite mem_In, <- get_key. unfold missing. rewrite (Hin q Iq).
      destruct (starts_in _); split; congruence. }
    assert (Ko : forall q, In q Q -> mem q (keys (w_out w)) = ends_out (history (map snd L') q)).
    { intros q Iq. apply eq_true_iff_eq. rewrite mem_In, <- get_key. unfold missing. rewrite (Hout q Iq).
      destruct (ends_out _); split; congruence. }
    set (wo := wires_out Q (map snd L')) in *. set (wi := wires_in Q (map snd L')) in *.
    assert (Oo : in_key_order (w_out w) = Ok (map O wo)).
    { rewrite (@key_order _ Q O); auto.
      - f_equal. f_equal. apply filter_ext_in. auto.
      - intros q Iq Kq. rewrite (Hout q Iq). rewrite <- (Ko q Iq), (proj2 (mem_In _ _) Kq). auto. }
    assert (Oi : in_key_order (w_in w) = Ok (map D wi)).
    { rewrite (@key_order _ Q D); auto.
      - f_equal. f_equal. apply filter_ext_in. auto.
      - intros q Iq Kq. rewrite (Hin q Iq). rewrite <- (Ki q Iq), (proj2 (mem_In _ _) Kq). auto. }
    assert (Wo : wires_out Q gs = wo) by (apply filter_ext; intros q; rewrite Hh; auto).
    assert (Wi : wires_in Q gs = wi) by (apply filter_ext; intros q; rewrite Hh; auto).
    rewrite Wo, Wi.
    unfold build in Run. rewrite by_time_map, <- map_rev in Run. rewrite (@mbind_eq _ _ _ _ _ _ n w) in Run by exact E.
    rewrite Oo in Run. rewrite (@mbind_eq _ _ _ _ _ _ n _) in Run by reflexivity.
    rewrite Oi in Run. rewrite (@mbind_eq _ _ _ _ _ _ n _) in Run by reflexivity. cbn [modify] in Run. injection Run as <-.
    set (os := map O wo ++ map D wi).
    assert (Iw : forall q e0, get q (w_in w) = Some e0 -> In e0 (map D wi)).
    { intros q e0 Ge. assert (Iq : In q Q) by (apply Ii; eapply get_Some_key; eauto). rewrite (Hin q Iq) in Ge.
      destruct (starts_in (history (map snd L') q)) eqn:Z; [|discriminate]. injection Ge as <-. apply in_map. apply filter_In. auto. }
    assert (Cn : core (VNet (with_opens n os)) /\ thin (VNet (with_opens n os))).
    { eapply core_wires; eauto.
      - intros e Ie. rewrite <- (keys_tn_dom n). apply in_app_iff in Ie as [Ie|Ie]; apply in_map_iff in Ie as (q & <- & Iq);
          unfold wo, wi, wires_out, wires_in in Iq; apply filter_In in Iq as [Iq1 Iq2]; [apply (rep_O R)|apply (rep_D R)]; auto.
      - intros q e0 Ge. apply in_app_iff. right. eauto. }
    destruct Sf as [Bn One Vals Nms Eds Dd]. split.
    - split; [apply Cn|]. split; [apply Cn|]. intros P DP e Pe.
      assert (DP' : dead P n) by (destruct DP as [D1 D2 D3]; constructor; auto).
      destruct (Dd P DP' e Pe) as (q & e0 & Ge & Pe0). exists e0. split; auto. cbn [opens with_opens].
      unfold os. rewrite <- (app_nil_r (repeat false _ ++ _)), <- (app_nil_r (map D wi)). apply mask_combine; [apply map_length|apply map_length|].
      left. eauto.
    - split; [exact Nms|]. right. intros e Ie. destruct (Eds e Ie) as (t & k & q & -> & _). eexists. split; [reflexivity|simpl; lia].
  Qed.
End CorePure.
