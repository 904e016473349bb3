(** What the compiler produces for a network that is ready for contraction. *)
From Verif Require Import Base Scalar NetSpec ModelArray ModelTN TNInv TNOps TNExact ModelContract
  ContractFix ContractNet.
Set Implicit Arguments.

Section Template.
  Context {S : scalar} {T : Type} `{PT : Payload T}.
  Notation net := (tn T).
  Implicit Types (n m : net) (x e : name).
  Variable ev : T -> res (nd S).

  Definition size n e : nat := match edim n e with Some d => d | None => 0 end.

  (** What the first steps of [compile] (expansion and complete_delta) establish, and the
      conditions on the data: every array has the shape of its legs, every fixed edge is fixed to
      exactly one value. *)
  Record ready n : Prop := {
    rd_wf : wf n;
    rd_nodes : nodes n <> [];
    rd_opens : NoDup (opens n);
    rd_open : forall e, In e (opens n) -> attachedb n e = true /\ fixedb n e = false;
    rd_single : forall e ed fx, get e (edges n) = Some ed -> e_fix ed = Some fx -> exists v, fx = [v];
    rd_data : forall x nd, In (x, nd) (nodes n) ->
      exists t a, n_val nd = Some t /\ ev t = Ok a /\ nd_shape a = map (size n) (n_legs nd) /\
                  forall e, In e (n_legs nd) -> edim n e = Some (size n e)
  }.
  (** the sliced edges: not fixed, attached to some node and not of dimension 0 *)
  Record good_slices n (split : list name) : Prop := {
    gs_unfixed : forall e, In e split -> fixedb n e = false;
    gs_att : forall e, In e split -> attachedb n e = true;
    gs_dim : forall e, In e split -> 0 < size n e
  }.

  Definition fd1_of n : list (name * list nat) :=
    flat_map (fun p => match e_fix (snd p) with Some fx => [(fst p, fx)] | None => [] end) (edges n).
  Definition live n : list name :=
    keys (filter (fun p => negb (fixedb n (fst p)) && attachedb n (fst p)) (edges n)).
  Definition fd2_of n (split : list name) : list (name * list nat) :=
    map (fun e => (e, seq 0 (size n e))) (filter (fun e => mem e split) (live n)).
  Definition gone n (split : list name) e : bool := fixedb n e || mem e split.
  Definition rest_legs n (split : list name) (l : list name) : list name :=
    filter (fun e => negb (gone n split e)) l.
  Definition sub_opens n (split : list name) : list name :=
    filter (fun e => negb (mem e split)) (opens n).

  Lemma edge_fix_none es :
    (forall p, In p es -> e_fix (snd p) <> Some []) ->
    edge_fix [] es =
    Ok (Some (flat_map (fun p => match e_fix (snd p) with Some fx => [(fst p, fx)] | None => [] end) es)).
  Proof.
    induction es as [|[e ed] r IH]; intros E; auto.
    assert (Er : forall p, In p r -> e_fix (snd p) <> Some []) by (intros; apply E; simpl; auto).
    specialize (IH Er). cbn [edge_fix flat_map fst snd]. change (mem e []) with false. cbv iota.
    pose proof (E (e, ed) (or_introl eq_refl)) as Ne. simpl in Ne.
    destruct (e_fix ed) as [[|v w]|]; [congruence| |auto]. rewrite IH. simpl. auto.
  Qed.
  Lemma edge_fix_split split es :
    (forall p, In p es -> e_fix (snd p) = None) ->
    (forall p, In p es -> mem (fst p) split = true -> e_dim (snd p) <> None) ->
    edge_fix split es =
    Ok (Some (map (fun p => (fst p, seq 0 (match e_dim (snd p) with Some d => d | None => 0 end)))
                  (filter (fun p => mem (fst p) split) es))).
  Proof.
    induction es as [|[e ed] r IH]; intros F D; auto.
    assert (Fr : forall p, In p r -> e_fix (snd p) = None) by (intros; apply F; simpl; auto).
    assert (Dr : forall p, In p r -> mem (fst p) split = true -> e_dim (snd p) <> None)
      by (intros; apply D; simpl; auto).
    specialize (IH Fr Dr). cbn [edge_fix filter fst snd].
    pose proof (F (e, ed) (or_introl eq_refl)) as Fe. simpl in Fe. rewrite Fe.
    pose proof (D (e, ed) (or_introl eq_refl)) as De. simpl in De.
    destruct (mem e split); auto. destruct (e_dim ed) as [d|] eqn:Ed; [|exfalso; apply De; auto].
    rewrite IH. simpl. rewrite Ed. auto.
  Qed.

  Lemma keys_filter_map (B : Type) (p : name -> bool) (l : list (name * B)) :
    keys (filter (fun q => p (fst q)) l) = filter p (keys l).
  Proof.
    unfold keys. induction l as [|[a b] r IH]; simpl; auto. destruct (p a); simpl; rewrite IH; auto.
  Qed.

  Lemma fixedb_get n e ed : get e (edges n) = Some ed -> fixedb n e = match e_fix ed with Some _ => true | None => false end.
  Proof. unfold fixedb. intros ->; auto. Qed.

  (** ** the loop of fix_edge calls over the split edges (compiler.py:93-94) *)
  Definition same_but_fix n m : Prop :=
    nodes m = nodes n /\ adj m = adj n /\ opens m = opens n /\ keys (edges m) = keys (edges n) /\
    (forall e, fixedb m e = fixedb n e) /\ (forall e, edim m e = edim n e).

  Lemma fix_edge_refix n e d fx :
    get e (edges n) = Some (Edge (Some d) (Some fx)) -> 0 < d -> wf n ->
    exists m, fix_edge e [0] false n = (m, Ok tt) /\ same_but_fix n m /\ wf m.
  Proof.
    intros G D W. unfold fix_edge, mbind, getst. rewrite G. simpl.
    rewrite (proj2 (Nat.ltb_lt 0 d) D). cbn [andb].
    set (fx' := filter _ fx). set (ed' := Edge (Some d) (Some fx')).
    exists (with_edges n (set e ed' (edges n))). split; [reflexivity|].
    assert (K : keys (set e ed' (edges n)) = keys (edges n)) by (eapply set_keys_same; eauto).
    split.
    - split; auto. split; auto. split; auto. split; auto. split.
      + intros e'. unfold fixedb; simpl. rewrite get_set. destruct (eqb_spec e' e) as [->|]; auto.
        rewrite G; auto.
      + intros e'. unfold edim; simpl. rewrite get_set. destruct (eqb_spec e' e) as [->|]; auto.
        rewrite G; auto.
    - destruct W as [W1 W2 W3 W4 W5 W6 W7]. constructor; simpl; rewrite ?K; auto.
      intros e' ed fx0 G' F. rewrite get_set in G'. destruct (eqb_spec e' e) as [->|]; [|eauto].
      inversion G'; subst. simpl in F. inversion F; subst. exists d; split; auto.
      destruct (W7 _ _ _ G eq_refl) as [d' [Ed Fa]]. simpl in Ed. inversion Ed; subst.
      rewrite Forall_forall in *. intros v I. apply filter_In in I as [I _]; auto.
  Qed.

  Lemma refix_loop l n :
    (forall e, In e l -> exists d fx, get e (edges n) = Some (Edge (Some d) (Some fx)) /\ 0 < d) -> wf n ->
    exists m, foreach (fun e => fix_edge e [0] false) l n = (m, Ok tt) /\ same_but_fix n m /\ wf m.
  Proof.
    revert n; induction l as [|e r IH]; intros n Hl W.
    - exists n. split; [reflexivity|]. split; auto. unfold same_but_fix. auto 10.
    - destruct (Hl e (or_introl eq_refl)) as (d & fx & G & D).
      destruct (fix_edge_refix _ G D W) as (m & E & (S1 & S2 & S3 & S4 & S5 & S6) & Wm).
      destruct (IH m) as (k & Ek & (R1 & R2 & R3 & R4 & R5 & R6) & Wk); auto.
      { intros e' I. destruct (Hl e' (or_intror I)) as (d' & fx' & G' & D').
        assert (Ik : In e' (keys (edges m))) by (rewrite S4; eapply get_Some_key; eauto).
        apply key_get in Ik as [[dd ff] Gm].
        pose proof (S5 e') as F5. pose proof (S6 e') as F6. unfold fixedb, edim in F5, F6.
        rewrite Gm, G' in F5, F6. simpl in F5, F6. subst dd. destruct ff as [ff|]; [|discriminate].
        eauto. }
      exists k. split.
      + cbn [foreach]. unfold mbind. rewrite E. exact Ek.
      + split; auto. unfold same_but_fix.
        split; [congruence|]. split; [congruence|]. split; [congruence|]. split; [congruence|].
        split; intros; [rewrite R5|rewrite R6]; auto.
  Qed.

  Lemma split_edges_get split n e :
    get e (edges (split_edges split n)) =
    match get e (edges n) with
    | Some ed => Some (if mem e split then Edge (e_dim ed) (option_map (seq 0) (e_dim ed)) else ed)
    | None => None
    end.
  Proof.
    unfold split_edges; simpl. induction (edges n) as [|[a ed] r IH]; simpl; auto.
    destruct (mem a split) eqn:M; simpl; destruct (eqb_spec e a) as [->|]; auto; rewrite M; auto.
  Qed.
  Lemma split_edges_keys split n : keys (edges (split_edges split n)) = keys (edges n).
  Proof.
    unfold split_edges, keys; simpl. rewrite map_map. apply map_ext. intros [a ed]; simpl.
    destruct (mem a split); auto.
  Qed.

  Lemma shape_ints_ok n :
    (forall e, In e (opens n) -> edim n e = Some (size n e)) -> shape_ints n = Ok (map (size n) (opens n)).
  Proof.
    unfold shape_ints, shape_tn. intros D.
    assert (Q : forall l, (forall e, In e l -> edim n e = Some (size n e)) ->
      mapM (fun e => match get e (edges n) with None => Err KeyError | Some ed => Ok (e_dim ed) end) l
      = Ok (map (fun e => Some (size n e)) l)).
    { induction l as [|e r IH]; intros Dl; auto. cbn [mapM map]. rewrite IH by (intros; apply Dl; simpl; auto).
      assert (De := Dl e (or_introl eq_refl)). unfold edim in De at 1.
      destruct (get e (edges n)) as [ed|] eqn:G; [|discriminate]. rewrite De. simpl. auto. }
    rewrite Q by auto. simpl. clear. induction (opens n) as [|e r IH]; auto.
    cbn [mapM map]. rewrite IH. auto.
  Qed.

  Section Ready.
    Variable n : net.
    Variable split : list name.
    Hypothesis R : ready n.
    Hypothesis G : good_slices n split.

    Lemma att_key e : attachedb n e = true -> In e (keys (edges n)).
    Proof.
      intros A. apply (attached_In e (rd_wf R)) in A as (x & nd & Gx & I).
      eapply (wf_legs (rd_wf R)); eauto.
    Qed.
    Lemma att_dim e : attachedb n e = true -> edim n e = Some (size n e).
    Proof.
      intros A. apply (attached_In e (rd_wf R)) in A as (x & nd & Gx & I).
      apply get_In in Gx. destruct (rd_data R _ _ Gx) as (t & a & _ & _ & _ & D). auto.
    Qed.

    (** the working copy after line 69 *)
    Definition work : net := drop_idle (fix_all (with_opens (copy_tn n) (opens n ++ split))).

    Lemma wf_work0 : wf (with_opens (copy_tn n) (opens n ++ split)).
    Proof.
      destruct (rd_wf R) as [W1 W2 W3 W4 W5 W6 W7]. constructor; simpl; auto.
      intros e I. apply in_app_iff in I as [I|I]; auto. apply att_key, (gs_att G); auto.
    Qed.

    Lemma work_spec :
      wf work /\ opens work = opens n ++ split /\ stripped (fixedb n) n work /\
      edges work = filter (fun p => negb (fixedb n (fst p)) && attachedb n (fst p)) (edges n) /\
      adj work = filter (fun p => negb (fixedb n (snd p))) (adj n).
    Proof.
      unfold work. destruct (fix_all_spec wf_work0) as (W1 & O1 & S1 & E1 & A1).
      set (m := fix_all _) in *. simpl in O1, E1, A1.
      destruct (@drop_idle_spec _ m (wf_edges W1)) as (O2 & N2 & A2 & E2).
      split; [apply drop_idle_wf; auto|]. split; [congruence|].
      assert (FB : forall e, fixedb (with_opens (copy_tn n) (opens n ++ split)) e = fixedb n e)
        by reflexivity.
      split.
      { apply stripped_ext with (fun e => fixedb n e || false); [intros; apply orb_false_r|].
        apply stripped_trans with m; [exact S1|]. apply stripped_refl; auto. }
      rewrite A2, A1. split; auto.
      rewrite E2, E1, O1, filter_filter. apply filter_ext_in. intros [e ed] I. cbn [fst].
      rewrite FB.
      assert (At : attachedb m e = negb (fixedb n e) && attachedb n e).
      { assert (A1' : adj m = filter (fun p => negb (fixedb n (snd p))) (adj n)) by exact A1.
        unfold attachedb. rewrite A1'. clear. induction (adj n) as [|[x a] r IH]; simpl; [rewrite andb_false_r; auto|].
        destruct (eqb_spec e a) as [<-|Ne].
        - destruct (fixedb n e) eqn:F; simpl.
          + rewrite IH. auto.
          + rewrite eqb_refl. auto.
        - destruct (fixedb n a) eqn:F; simpl; auto. destruct (eqb_spec e a); [congruence|auto]. }
      rewrite At. destruct (mem e (opens n ++ split)) eqn:Mo; simpl.
      - apply mem_In, in_app_iff in Mo as [Io|Is].
        + destruct (rd_open R e Io) as [-> ->]; auto.
        + rewrite (gs_att G e Is), (gs_unfixed G e Is); auto.
      - destruct (fixedb n e), (attachedb n e); auto.
    Qed.

    Lemma live_work : keys (edges work) = live n.
    Proof. destruct work_spec as (_ & _ & _ & E & _). rewrite E. reflexivity. Qed.

    Lemma fd2_work : edge_fix split (edges work) = Ok (Some (fd2_of n split)).
    Proof.
      destruct work_spec as (W & _ & _ & E & _).
      assert (Q : forall p, In p (edges work) -> get (fst p) (edges n) = Some (snd p) /\
                 fixedb n (fst p) = false /\ attachedb n (fst p) = true).
      { intros [e ed] I. rewrite E in I. apply filter_In in I as [I Hp]. simpl in *.
        apply andb_true_iff in Hp as [H1 H2]. apply negb_true_iff in H1. split; auto.
        apply In_get; auto. apply (wf_edges (rd_wf R)). }
      rewrite edge_fix_split.
      - f_equal. f_equal. unfold fd2_of. rewrite <- live_work. unfold keys. clear W E.
        induction (edges work) as [|[e ed] r IH]; simpl; auto.
        assert (Qr : forall p, In p r -> get (fst p) (edges n) = Some (snd p) /\
                 fixedb n (fst p) = false /\ attachedb n (fst p) = true) by (intros; apply Q; simpl; auto).
        destruct (mem e split); simpl; rewrite IH by auto; auto. f_equal. f_equal. f_equal.
        destruct (Q (e, ed) (or_introl eq_refl)) as [Gq _]. simpl in Gq. unfold size, edim. rewrite Gq. auto.
      - intros p I. destruct (Q p I) as (Gp & F & _). rewrite (fixedb_get _ _ Gp) in F.
        destruct (e_fix (snd p)); congruence.
      - intros p I _. destruct (Q p I) as (Gp & _ & A). apply att_dim in A. unfold edim in A at 1.
        rewrite Gp in A. congruence.
    Qed.

    Lemma live_In e : In e (live n) <-> fixedb n e = false /\ attachedb n e = true.
    Proof.
      unfold live. rewrite (keys_filter_map (fun e => negb (fixedb n e) && attachedb n e)).
      rewrite filter_In, andb_true_iff, negb_true_iff. split; [tauto|].
      intros [F A]. split; auto. apply att_key; auto.
    Qed.

    (** the working copy after line 95 *)
    Lemma work2_spec :
      exists m, run_net (foreach (fun e => fix_edge e [0] false) split)
          (with_opens (split_edges split work)
                      (filter (fun e => negb (mem e split)) (opens work))) = Ok (m, tt) /\
        template_delta (fix_all m) = (fix_all m, Ok tt) /\
        opens (fix_all m) = sub_opens n split /\
        stripped (gone n split) n (fix_all m) /\
        (forall e, In e (keys (edges (fix_all m))) -> unfixed (fix_all m) e = true) /\
        wf (fix_all m).
    Proof.
      destruct work_spec as (W & O & St & E & A).
      set (w1 := with_opens (split_edges split work) (filter (fun e => negb (mem e split)) (opens work))).
      assert (Ow : opens w1 = sub_opens n split).
      { unfold w1; simpl. rewrite O, filter_app.
        replace (filter (fun e => negb (mem e split)) split) with (@nil name).
        - rewrite app_nil_r; auto.
        - symmetry. clear. assert (forall l, incl l split -> filter (fun e => negb (mem e split)) l = []) as Q.
          { induction l as [|a r IH]; simpl; auto. intros I. rewrite (proj2 (mem_In a split)) by (apply I; simpl; auto).
            simpl. apply IH. intros b Ib; apply I; simpl; auto. }
          apply Q, incl_refl. }
      assert (Gw : forall e, get e (edges work) = match get e (edges n) with
                    | Some ed => if negb (fixedb n e) && attachedb n e then Some ed else None
                    | None => None end).
      { intros e. rewrite E. rewrite filter_edges_get by apply (wf_edges (rd_wf R)). reflexivity. }
      assert (Fw : forall e, fixedb w1 e = match get e (edges work) with Some _ => mem e split | None => false end).
      { intros e. unfold fixedb. change (edges w1) with (edges (split_edges split work)).
        rewrite (split_edges_get split work e). destruct (get e (edges work)) as [ed|] eqn:Ge; auto.
        rewrite Gw in Ge. destruct (get e (edges n)) as [ed'|] eqn:Gn; [|discriminate].
        destruct (negb (fixedb n e) && attachedb n e) eqn:Q; inversion Ge; subst.
        apply andb_true_iff in Q as [Q1 Q2]. apply negb_true_iff in Q1.
        destruct (mem e split); simpl.
        - apply att_dim in Q2. unfold edim in Q2 at 1. rewrite Gn in Q2. rewrite Q2. auto.
        - rewrite (fixedb_get _ _ Gn) in Q1. auto. }
      assert (Ws : wf w1).
      { destruct W as [W1 W2 W3 W4 W5 W6 W7]. constructor; try (simpl; auto; fail).
        - change (edges w1) with (edges (split_edges split work)). rewrite split_edges_keys. auto.
        - change (edges w1) with (edges (split_edges split work)). rewrite split_edges_keys. auto.
        - change (edges w1) with (edges (split_edges split work)). rewrite split_edges_keys. intros e I. simpl in I. apply filter_In in I as [I _]; auto.
        - intros e ed fx Ge F. change (edges w1) with (edges (split_edges split work)) in Ge. rewrite split_edges_get in Ge.
          destruct (get e (edges work)) as [ed0|] eqn:G0; [|discriminate].
          destruct (mem e split) eqn:M.
          + inversion Ge; subst. simpl in *. destruct (e_dim ed0) as [d|]; [|discriminate].
            simpl in F. inversion F; subst. exists d. split; auto. apply Forall_forall. intros v I.
            apply in_seq in I. lia.
          + inversion Ge; subst. eauto. }
      destruct (@refix_loop split w1) as (m & Em & (S1 & S2 & S3 & S4 & S5 & S6) & Wm); auto.
      { intros e I. assert (At := gs_att G e I). pose proof (gs_unfixed G e I) as Fe.
        pose proof (att_key _ At) as Ik. apply key_get in Ik as [ed Ge].
        pose proof (att_dim _ At) as De. unfold edim in De at 1. rewrite Ge in De.
        exists (size n e), (seq 0 (size n e)). split; [|apply (gs_dim G); auto].
        change (edges w1) with (edges (split_edges split work)). rewrite (split_edges_get split work e), Gw, Ge, Fe, At. simpl.
        rewrite (proj2 (mem_In e split) I), De. auto. }
      exists m. split; [unfold run_net; rewrite Em; auto|].
      destruct (fix_all_spec Wm) as (W6 & O6 & St6 & E6 & A6).
      assert (Fm : forall e, fixedb m e = match get e (edges work) with Some _ => mem e split | None => false end).
      { intros e. rewrite S5. apply Fw. }
      assert (Unf : forall e, In e (keys (edges (fix_all m))) -> fixedb (fix_all m) e = false).
      { intros e I. rewrite E6 in I. rewrite (keys_filter_map (fun e => mem e (opens m) || negb (fixedb m e))) in I.
        apply filter_In in I as [Ik C]. unfold fixedb at 1. rewrite E6.
        rewrite filter_edges_get by apply (wf_edges Wm). cbn [fst].
        rewrite S4 in Ik. change (edges w1) with (edges (split_edges split work)) in Ik. rewrite split_edges_keys in Ik.
        apply key_get in Ik as [ed Ge].
        assert (Mf : fixedb m e = false).
        { apply orb_true_iff in C as [C|C]; [|apply negb_true_iff; auto].
          rewrite Fm. rewrite Ge. rewrite S3, Ow in C. apply mem_In in C. unfold sub_opens in C.
          apply filter_In in C as [_ C]. apply negb_true_iff; auto. }
        unfold fixedb in Mf. destruct (get e (edges m)) as [em|]; auto.
        destruct (mem e (opens m) || _); auto. }
      assert (St' : stripped (gone n split) n (fix_all m)).
      { assert (Q : stripped (fun e => fixedb n e || fixedb m e) n (fix_all m)).
        { apply stripped_trans with m; auto.
          apply stripped_ext with (fun e => fixedb n e || false); [intros; apply orb_false_r|].
          apply stripped_trans with work; auto. apply stripped_refl. rewrite S1. reflexivity. }
        destruct Q as [Qk Qg]. split; auto. intros x. specialize (Qg x).
        destruct (get x (nodes n)) as [nd|] eqn:Gx, (get x (nodes (fix_all m))); auto.
        destruct Qg as [Q1 Q2]. split; auto. rewrite Q1. apply filter_ext_in. intros e I.
        unfold gone. destruct (fixedb n e) eqn:Fe; auto. simpl. f_equal. rewrite Fm, Gw, Fe.
        assert (At : attachedb n e = true) by (apply (attached_In e (rd_wf R)); eauto).
        rewrite At. simpl. pose proof (att_key _ At) as Ik. apply key_get in Ik as [ed ->]. auto. }
      split.
      { apply template_delta_noop; auto.
        - intros En. apply (rd_nodes R). destruct St' as [Ks _]. rewrite En in Ks. destruct (nodes n); [auto|discriminate].
        - rewrite O6, S3, Ow. apply NoDup_filter', (rd_opens R).
        - intros e I. split; [|apply Unf, (wf_opens W6); auto].
          rewrite O6, S3, Ow in I. unfold sub_opens in I. apply filter_In in I as [I Ns].
          destruct (rd_open R e I) as [At Fe]. apply (attached_In e (rd_wf R)) in At as (x & nd & Gx & Il).
          apply (attached_In e W6). destruct St' as [_ Sg]. specialize (Sg x). rewrite Gx in Sg.
          destruct (get x (nodes (fix_all m))) as [nd'|] eqn:Gx'; [|tauto]. destruct Sg as [Sl _].
          exists x, nd'. split; auto. rewrite Sl. apply filter_In. split; auto. unfold gone. rewrite Fe. auto. }
      split; [rewrite O6, S3, Ow; auto|]. split; auto. split; auto.
      intros e I. unfold unfixed. pose proof (Unf e I) as F. unfold fixedb in F.
      apply key_get in I as [ed Ge]. rewrite Ge in *. destruct (e_fix ed); auto.
    Qed.

    Lemma fd1_ok : edge_fix [] (edges n) = Ok (Some (fd1_of n)).
    Proof.
      apply edge_fix_none. intros [e ed] I F. simpl in F.
      destruct (rd_single R e) with (2 := F) as [v E]; [|discriminate].
      apply In_get; auto. apply (wf_edges (rd_wf R)).
    Qed.

    Definition dref1 : name -> aloc := snd (template_fix 1 (keys (fd1_of n)) (nodes n) AIn).
    Definition cs1 : list cmd := fst (template_fix 1 (keys (fd1_of n)) (nodes n) AIn).
    Definition dref2 : name -> aloc :=
      snd (template_fix 2 (keys (fd2_of n split)) (nodes work) dref1).
    Definition cs2 : list cmd := fst (template_fix 2 (keys (fd2_of n split)) (nodes work) dref1).

    Definition the_fix : list ((name * list nat) * cell) :=
      fix_dict 1 (fd1_of n) ++ fix_dict 2 (fd2_of n split).
    Definition the_task (path : option (list (nat * nat))) : task :=
      Task (cs1 ++ cs2 ++ [CmdC (map dref2 (keys (nodes n))) AOut
                                (map (fun p => rest_legs n split (n_legs (snd p))) (nodes n))
                                (sub_opens n split) path])
           AOut (map (fun x => (x, AIn x)) (keys (nodes n))) (map (size n) (opens n)) the_fix
           (Some (opens n)) (sub_opens n split) (length cs1) (fix_length the_fix).
    Definition the_store : store S :=
      Store (fun l => match l with AConst x => None | _ => None end) (fix_cells (fd1_of n)) [] false.

    Definition the_path (o : order) : res (option (list (nat * nat))) :=
      match o with [] => Ok None | _ => do p <- order_path (keys (nodes n)) o; Ok (Some p) end.

    Lemma template_ok o :
      generate_template ev n o split = do p <- the_path o; Ok (the_task p, the_store).
    Proof.
      unfold generate_template. rewrite fd1_ok. cbn [bind].
      rewrite shape_ints_ok by (intros e I; apply att_dim, (rd_open R); auto). cbn [bind].
      rewrite (surjective_pairing (template_fix 1 _ _ _)). fold work. rewrite fd2_work. cbn [bind].
      rewrite (surjective_pairing (template_fix 2 _ _ _)).
      destruct work2_spec as (m & Em & Ed & Eo & Es & Eu & Wm).
      change (opens (split_edges split work)) with (opens work). rewrite Em. cbn [bind fst].
      unfold run_net. rewrite Ed. cbn [bind fst].
      destruct Es as [Ks Gs].
      rewrite Ks. fold (the_path o). destruct (the_path o) as [p|]; [|auto]. cbn [bind].
      replace (filter (fun q => negb (has (fst q) (nodes (fix_all m)))) (nodes (fix_all m)))
        with (@nil (name * node T)).
      2:{ symmetry. assert (Q : forall l, incl (keys l) (keys (nodes (fix_all m))) ->
             filter (fun q : name * node T => negb (has (fst q) (nodes (fix_all m)))) l = []).
          { induction l as [|[x nd] r IH]; simpl; auto. intros I.
            rewrite (proj2 (has_In x (nodes (fix_all m)))) by (apply I; simpl; auto). simpl.
            apply IH. intros y Iy; apply I; simpl; auto. }
          apply Q, incl_refl. }
      cbn [mapM bind]. unfold the_task, the_store. fold dref1 cs1. fold dref2 cs2. fold the_fix.
      rewrite Eo.
      assert (L1 : subs_lhs (fix_all m) = map (fun p => rest_legs n split (n_legs (snd p))) (nodes n)).
      { unfold subs_lhs.
        transitivity (map (fun p => n_legs (snd p)) (nodes (fix_all m))).
        - apply map_ext_in. intros [x nd] I. simpl. apply filter_all. intros e Ie. apply Eu.
          eapply (wf_legs Wm); [apply In_get; eauto; apply (wf_nodes Wm)|exact Ie].
        - pose proof (@stripped_nodes _ (gone n split) n (fix_all m) (wf_nodes (rd_wf R)) (conj Ks Gs)) as Q.
          apply (f_equal (map (fun q => fst (snd q)))) in Q. rewrite !map_map in Q. exact Q. }
      rewrite L1.
      assert (L2 : subs_rhs (fix_all m) = sub_opens n split).
      { unfold subs_rhs. rewrite Eo. apply filter_all. intros e I. apply Eu, (wf_opens Wm). rewrite Eo; auto. }
      rewrite L2.
      assert (L3 : map (fun x => if has x (nodes (fix_all m)) then dref2 x else AConst x) (keys (nodes n))
                   = map dref2 (keys (nodes n))).
      { apply map_ext_in. intros x I. rewrite (proj2 (has_In x (nodes (fix_all m)))); auto. rewrite Ks; auto. }
      rewrite L3. reflexivity.
    Qed.
  End Ready.
End Template.
