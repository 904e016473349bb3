(** More facts about edits: the constructor, and calls that would change a bond dimension. *)
From Verif Require Import Base Scalar NetSpec Sums NetAlg ModelTN TNInv TNOps TNSpec TNMerge TNDelta
  ModelHist TNHist TNValue TNValue2 TNExact TNDeltaValue TNEdit.
Set Implicit Arguments.

Section Edit2.
  Context {T : Type} `{PT : Payload T}.
  Notation net := (tn T).
  Implicit Types (n : net) (x e m : name).

  (** ** the constructor *)
  Lemma add_edge_keys e d n n' r : e <> NN -> add_edge e d n = (n', Ok r) ->
    incl (keys (edges n')) (keys (edges n) ++ [e]).
  Proof.
    intros NE E. unfold add_edge in E. minv E.
    assert (E' : n0 = n /\ r = e) by (destruct e; minvs; auto; congruence).
    destruct E' as [-> ->].
    destruct (has e (edges n)) eqn:Hs.
    - destruct d as [n0|]; minvs.
      + pose proof (update_dimension_grows [(e, Some n0)] n) as G. rewrite E1 in G; simpl in G.
        intros a Ha. unfold update_dimension in E1. cbn [foreach fst snd] in E1. minvs.
        unfold update_dim1 in E. minvs. destruct (get e (edges n)) as [ed|] eqn:Ge; minvs.
        destruct (e_dim ed) as [y|]; [destruct (y =? n0); minvs; apply in_or_app; auto|].
        minvs. simpl in Ha. erewrite set_keys_same in Ha by eauto. apply in_or_app; auto.
      + intros a Ha; apply in_or_app; auto.
    - minvs. simpl. rewrite keys_app. simpl. apply incl_refl.
  Qed.

  Lemma add_edges_inv (os : list name) d : forall n n', ~ In NN os ->
    foreach (fun e => let! _ := add_edge e d in ret tt) os n = (n', Ok tt) ->
    inv n -> inv n' /\ fixes_kept n n' /\ opens n' = opens n /\ nodes n' = nodes n /\
    incl (keys (edges n)) (keys (edges n')) /\ incl os (keys (edges n')) /\
    incl (keys (edges n')) (keys (edges n) ++ os).
  Proof.
    induction os as [|e os IH]; intros n n' Hnn E I.
    - inversion E; subst. split; auto. split; [apply fk_refl|].
      split; auto. split; auto. split; [apply incl_refl|]. split; [intros ? []|].
      rewrite app_nil_r; apply incl_refl.
    - cbn [foreach] in E. minv E. minv E0.
      pose proof (@fk_add_edge T e d n) as FK. rewrite E1 in FK; simpl in FK.
      pose proof (@add_edge_clean T e d n) as C. rewrite E1 in C; simpl in C.
      assert (W1 : wf n0) by (eapply add_edge_wf; eauto; apply I).
      assert (I1 : inv n0) by (eapply inv_clean; eauto).
      destruct (add_edge_ok _ _ _ E1) as (G & Ir & Q).
      assert (NE : e <> NN) by (intros ->; apply Hnn; left; auto).
      pose proof (add_edge_keys _ _ NE E1) as K1.
      rewrite (Q NE) in *.
      destruct (IH n0 n') as (I2 & FK2 & O2 & N2 & K2 & K3 & K4); auto.
      { intros Hin; apply Hnn; right; auto. }
      split; auto. split; [eapply fk_trans; eauto|].
      split; [rewrite O2; apply G|]. split; [rewrite N2; apply G|].
      split; [intros a Ha; apply K2; eapply grows_key; eauto|].
      split; [intros a [<-|Ha]; [apply K2; auto|apply K3; auto]|].
      intros a Ha. apply K4 in Ha. rewrite in_app_iff in *. destruct Ha as [Ha|Ha]; [|right; right; auto].
      apply K1 in Ha. rewrite in_app_iff in Ha. simpl in Ha. simpl. tauto.
  Qed.

  Lemma new_tn_ok (os : list name) d n' : ~ In NN os ->
    new_tn (T := T) os d = (n', Ok tt) ->
    inv n' /\ fix_nodup n' /\ opens n' = os /\ nodes n' = [] /\
    (forall e, In e (keys (edges n')) <-> In e os) /\
    ((forall e k, In e os -> e <> auto_name k) -> auto_free n').
  Proof.
    intros Hnn E. unfold new_tn in E. minvs.
    destruct (@add_edges_inv os d empty_tn n) as (I & FK & O & N & K1 & K2 & K3); auto.
    { apply empty_inv. }
    simpl in *. rewrite O. simpl.
    assert (FN : fix_nodup n). { apply FK. intros ? ? ? Q; discriminate Q. }
    split.
    { destruct I as [W NNf]. split; auto. destruct W; constructor; simpl; auto. }
    split; [exact FN|]. split; auto. split; [rewrite N; auto|].
    split; [intros e; split; [apply K3|apply K2]|].
    intros NA k _ Hk. simpl in Hk. apply K3 in Hk. eapply NA; eauto.
  Qed.

  (** ** giving an edge another dimension *)
  Lemma update_dimension_other e d d' n : has_dim n e d -> d' <> d ->
    update_dimension [(e, Some d')] n = (n, Err AssertionError).
  Proof.
    intros (ed & G & D) Ne. unfold update_dimension, foreach, update_dim1, mbind, getst. simpl.
    rewrite G, D. destruct (Nat.eqb_spec d d') as [Q|Q]; [congruence|]. reflexivity.
  Qed.
  Lemma add_edge_other e d d' n : e <> NN -> has_dim n e d -> d' <> d ->
    add_edge e (Some d') n = (n, Err AssertionError).
  Proof.
    intros NE Hd Ne. unfold add_edge, mbind, getst.
    assert (Hs : has e (edges n) = true).
    { destruct Hd as (ed & G & _). apply has_In. eapply get_Some_key; eauto. }
    replace (match e with NN => _ | _ => ret e end n) with (n, Ok e : res name)
      by (destruct e; auto; congruence).
    rewrite Hs. rewrite (@update_dimension_other e d d' n); auto.
  Qed.
  Lemma add_node_other x legs t op n n' r i e d d' sh :
    has_dim n e d -> ~ In NN legs ->
    pshape t = Some sh -> nth_error legs i = Some e -> nth_error sh i = Some (Some d') ->
    add_node x (Some legs) t op n = (n', Ok r) -> d' = d.
  Proof.
    intros Hd NNl Hs Hl Hi E.
    pose proof (@add_node_keeps T PT x (Some legs) t op n) as K. rewrite E in K; simpl in K.
    apply K in Hd.
    apply add_node_spec in E as [_ A]; auto.
    destruct (ad_dims A Hs i Hl Hi) as (ed & G & D). destruct Hd as (ed2 & G2 & D2). congruence.
  Qed.
  Lemma update_dimension_checks dic : forall n n' e d, update_dimension dic n = (n', Ok tt) ->
    In (e, Some d) dic -> has_dim n' e d.
  Proof.
    induction dic as [|[a b] dic IH]; intros n n' e d E Hin; [destruct Hin|].
    unfold update_dimension in E. cbn [foreach fst snd] in E. minv E.
    destruct Hin as [Q|Hin]; [|eapply IH; eauto].
    inversion Q; subst. destruct (@update_dim1_dim T e d n n0 _ E0) as (ed & G & D).
    pose proof (grows_keeps (@update_dimension_grows T dic n0)) as K.
    unfold update_dimension in K. rewrite E in K; simpl in K. apply K. exists ed; auto.
  Qed.
  Lemma update_node_other x t nd n n' r i e d d' sh :
    has_dim n e d -> get x (nodes n) = Some nd -> NoDup (n_legs nd) ->
    pshape t = Some sh -> nth_error (n_legs nd) i = Some e -> nth_error sh i = Some (Some d') ->
    update_node x t n = (n', Ok r) -> d' = d.
  Proof.
    intros Hd G ND Hs Hl Hi E.
    pose proof (@update_node_keeps T PT x t n) as K. rewrite E in K; simpl in K. apply K in Hd.
    unfold update_node in E. minv E. rewrite G in E. minv E. rewrite Hs in E.
    destruct (Nat.leb_spec (length (n_legs nd)) (length sh)) as [L|]; [|discriminate].
    destruct r as [].
    eapply update_dimension_checks with (e := e) (d := d') in E.
    { destruct E as (ed & G1 & D1), Hd as (ed2 & G2 & D2). congruence. }
    clear - ND Hl Hi. revert i sh Hl Hi.
    assert (P : forall (l : list name) sh acc i, NoDup (keys acc ++ l) -> nth_error l i = Some e ->
      nth_error sh i = Some (Some d') -> In (e, Some d') (dict_of (combine l sh) acc)).
    { assert (Keep : forall (l : list (name * option nat)) acc, In (e, Some d') acc ->
        NoDup (keys acc ++ keys l) -> In (e, Some d') (dict_of l acc)).
      { induction l as [|[a b] l IH]; intros acc Hin N; simpl; auto.
        assert (NA : ~ In a (keys acc)).
        { simpl in N. apply NoDup_remove_2 in N. rewrite in_app_iff in N. tauto. }
        assert (Q : set a b acc = acc ++ [(a, b)]).
        { clear - NA. induction acc as [|[c0 v] acc IH]; simpl; auto.
          destruct (eqb_spec a c0) as [->|Hne]; [exfalso; apply NA; left; auto|].
          f_equal. apply IH. intros Hin; apply NA; right; auto. }
        rewrite Q. apply IH; [apply in_or_app; auto|].
        rewrite keys_app. simpl. rewrite <- app_assoc. exact N. }
      induction l as [|a l IH]; intros sh acc i N Hl Hi; [destruct i; discriminate|].
      destruct sh as [|b sh]; [destruct i; discriminate|].
      assert (NA : ~ In a (keys acc)).
      { apply NoDup_remove_2 in N. rewrite in_app_iff in N. tauto. }
      assert (Q : set a b acc = acc ++ [(a, b)]).
      { clear - NA. induction acc as [|[c0 v] acc IH]; simpl; auto.
        destruct (eqb_spec a c0) as [->|Hne]; [exfalso; apply NA; left; auto|].
        f_equal. apply IH. intros Hin; apply NA; right; auto. }
      simpl. rewrite Q. destruct i as [|i].
      - simpl in Hl, Hi. inversion Hl; inversion Hi; subst. apply Keep.
        + apply in_or_app; right; left; auto.
        + rewrite keys_app. simpl. rewrite <- app_assoc. simpl.
          revert N. clear. revert sh. intros sh N.
          apply NoDup_remove in N as [N1 N2].
          assert (Q : exists tl, l = keys (combine l sh) ++ tl).
          { clear. revert sh; induction l as [|c l IH]; intros [|b sh]; simpl; eauto.
            destruct (IH sh) as [tl Hm]. exists tl. f_equal; auto. }
          destruct Q as [tl Hm]. rewrite Hm in N1, N2.
          rewrite app_assoc in N1. apply NoDup_app_remove_r in N1.
          apply NoDup_Add with (a := e) (l := keys acc ++ keys (combine l sh)).
          { apply Add_app. }
          split; auto. intros Q; apply N2. rewrite app_assoc. apply in_or_app; auto.
      - apply IH with (i := i); auto. rewrite keys_app. simpl. rewrite <- app_assoc. exact N. }
    intros i sh Hl Hi. apply P with (i := i); auto.
  Qed.

  (** ** fix_edge and fix_index return normally when the values are in range *)
  Lemma fix_edge_total e vals d n : edim n e = Some d -> (forall v, In v vals -> v < d) ->
    exists n', fix_edge e vals false n = (n', Ok tt).
  Proof.
    unfold edim, fix_edge, mbind, getst. destruct (get e (edges n)) as [ed|] eqn:G; [|discriminate].
    intros D L. rewrite D.
    assert (F : forallb (fun v => v <? d) vals = true).
    { apply forallb_forall. intros v Hv. apply Nat.ltb_lt; auto. }
    rewrite F. destruct (e_fix ed); eexists; reflexivity.
  Qed.
  Lemma fix_index_total i e vals d n : nth_error (opens n) i = Some e -> edim n e = Some d ->
    (forall v, In v vals -> v < d) -> exists n', fix_index i vals n = (n', Ok tt).
  Proof.
    intros N D L. destruct (@fix_edge_total e vals d n D L) as [n1 E].
    exists (with_opens n1 (del_nth i (opens n1))).
    unfold fix_index. unfold mbind at 1, getst at 1. rewrite N. unfold mbind. rewrite E. reflexivity.
  Qed.
  Lemma fix_edge_edim e vals n n' r a : fix_edge e vals false n = (n', Ok r) -> edim n' a = edim n a.
  Proof.
    intros E. unfold fix_edge in E. minv E. destruct (get e (edges n)) as [ed|] eqn:G; [|discriminate].
    destruct (e_dim ed) as [d|] eqn:D; [|discriminate]. destruct (forallb _ vals); [|discriminate].
    unfold edim. destruct (e_fix ed); inversion E; subst; simpl;
    (destruct (eqb_spec a e) as [->|Hn]; [rewrite get_set_eq, G; auto|rewrite get_set_neq; auto]).
  Qed.

  (** ** merge_edges returns normally on distinct edges of one dimension *)
  Lemma last_dim_total es D n : forall d0, (forall e, In e es -> edim n e = Some D) -> es <> [] ->
    last_dim es d0 n = (n, Ok (Some D)).
  Proof.
    induction es as [|e r IH]; intros d0 H NE; [congruence|].
    cbn [last_dim]. unfold mbind at 1, getst at 1.
    pose proof (H e (or_introl eq_refl)) as He. unfold edim in He.
    destruct (get e (edges n)) as [ed|]; [|discriminate]. rewrite He.
    destruct r as [|e2 r]; [reflexivity|]. apply IH; [intros; apply H; right; auto|discriminate].
  Qed.
  (** only the attributes of the edges matter for the loop *)
  Definition fixes_ok n : Prop := forall e ed fx, get e (edges n) = Some ed -> e_fix ed = Some fx ->
    exists d, e_dim ed = Some d /\ Forall (fun v => v < d) fx.
  Lemma merge1_total' m e D n : fixes_ok n -> edim n m = Some D -> edim n e = Some D ->
    exists n', merge1 m e n = (n', Ok tt).
  Proof.
    intros W Hm He. unfold merge1. unfold mbind at 1, getst at 1.
    unfold edim in He. destruct (get e (edges n)) as [ed|] eqn:G; [|discriminate].
    assert (F : exists n1, (match e_fix ed with Some fx => fix_edge m fx false | None => ret tt end) n = (n1, Ok tt)).
    { destruct (e_fix ed) as [fx|] eqn:Fx; [|eexists; reflexivity].
      apply fix_edge_total with D; auto. destruct (W _ _ _ G Fx) as (d & Dd & L).
      rewrite Forall_forall in L. replace D with d by congruence. auto. }
    destruct F as [n1 F]. rewrite (@mbind_eq _ _ _ _ _ n n1 tt F).
    unfold mbind, modify. destruct (eqb e m); eexists; reflexivity.
  Qed.
  Lemma step_fixes m e n n1 : step_spec m e n n1 -> In m (keys (edges n)) -> fixes_ok n -> fixes_ok n1.
  Proof.
    intros St Im F a ed fx G Fx. destruct (eqb_spec a m) as [->|Nm].
    - destruct (key_get _ _ Im) as [edm Gm]. destruct (st_m St Gm) as (edm' & G' & Dm & V & Q).
      rewrite G' in G; inversion G; subst ed. rewrite Dm.
      destruct Q as [Q|(d & D & Q)].
      + apply (F _ _ fx Gm). congruence.
      + exists d; split; auto. rewrite Q in Fx; inversion Fx; subst. apply Forall_filter.
        unfold edge_values. destruct (e_fix edm) as [f0|] eqn:F0.
        * destruct (F _ _ _ Gm F0) as (d' & D' & L). replace d with d' by congruence; auto.
        * rewrite D. apply Forall_forall. intros v Hv. apply in_seq in Hv. lia.
    - assert (Ne : a <> e).
      { intros ->. pose proof (get_Some_key _ _ G) as I. apply (st_keys St) in I. tauto. }
      rewrite (st_get St) in G by auto. eauto.
  Qed.
  Lemma merge_loop_total m D es : forall n, fixes_ok n -> edim n m = Some D ->
    NoDup es -> (forall e, In e es -> edim n e = Some D) ->
    exists n', foreach (merge1 m) es n = (n', Ok tt).
  Proof.
    induction es as [|e r IH]; intros n F Hm ND He; [eexists; reflexivity|].
    destruct (@merge1_total' m e D n F Hm) as [n1 E1]; [apply He; left; auto|].
    pose proof (merge1_spec _ _ _ E1) as St.
    assert (Im : In m (keys (edges n))).
    { unfold edim in Hm. destruct (get m (edges n)) eqn:G; [eapply get_Some_key; eauto|discriminate]. }
    inversion ND as [|? ? Ne NDr]; subst.
    assert (Q : edim n1 m = Some D /\ (forall a, a <> e -> edim n1 a = edim n a)).
    { unfold edim in *. destruct (get m (edges n)) as [edm|] eqn:G; [|discriminate].
      destruct (st_m St G) as (edm' & G' & Dm & _).
      split; [rewrite G'; congruence|].
      intros a Ha. destruct (eqb_spec a m) as [->|Hn]; [rewrite G', G; auto|].
      rewrite (st_get St) by auto. auto. }
    destruct Q as [Q1 Q2].
    destruct (IH n1) as [n2 E2]; auto.
    { eapply step_fixes; eauto. }
    { intros a Ha. rewrite Q2; [apply He; right; auto|]. intros ->; auto. }
    exists n2. cbn [foreach]. rewrite (@mbind_eq _ _ _ _ _ n n1 tt E1). exact E2.
  Qed.
  Lemma merge_edges_total es mt m n D : wf n -> es <> [] -> NoDup es ->
    (forall e, In e es -> edim n e = Some D) ->
    (mt <> NN /\ m = mt \/ mt = NN /\ sorted_last es = Ok m) ->
    (In m (keys (edges n)) -> edim n m = Some D \/ edim n m = None) ->
    exists n', merge_edges es mt n = (n', Ok m).
  Proof.
    intros W NE ND He Hmt Hm.
    assert (Ies : incl es (keys (edges n))).
    { intros e Ie. apply He in Ie. unfold edim in Ie. destruct (get e (edges n)) eqn:G; [eapply get_Some_key; eauto|discriminate]. }
    unfold merge_edges.
    rewrite (@mbind_eq _ _ _ _ _ n n (Some D) (@last_dim_total es D n None He NE)).
    assert (Tg : exists n1, match mt with
        | NN => lift (sorted_last es)
        | _ => let! n := getst in if has mt (edges n) then ret mt else add_edge mt None
        end n = (n1, Ok m) /\
        (In m (keys (edges n)) /\ n1 = n \/
         ~ In m (keys (edges n)) /\ n1 = with_edges n (edges n ++ [(m, Edge None None)]))).
    { destruct Hmt as [[Hn ->]|[-> Hs]].
      - destruct (has mt (edges n)) eqn:Hh.
        + exists n. apply has_In in Hh. split; [|left; auto].
          apply has_In in Hh. destruct mt; [congruence|..]; unfold mbind, getst; rewrite Hh; reflexivity.
        + assert (NI' : ~ In mt (keys (edges n))) by (rewrite <- has_In; congruence).
          exists (with_edges n (edges n ++ [(mt, Edge None None)])).
          split; [|right; auto].
          pose proof (@add_edge_fresh T mt None n NI' Hn) as Q.
          destruct mt; [congruence|..]; unfold mbind at 1, getst at 1; rewrite Hh; exact Q.
      - exists n. unfold lift. rewrite Hs. split; auto. left; split; auto.
        apply Ies. eapply sorted_last_In; eauto. }
    destruct Tg as (n1 & E1 & Q3). rewrite (@mbind_eq _ _ _ _ _ n n1 m E1).
    assert (U : exists n2, update_dimension [(m, Some D)] n1 = (n2, Ok tt)).
    { unfold update_dimension, foreach, update_dim1, mbind, getst, fst, snd.
      assert (G : exists ed, get m (edges n1) = Some ed /\ (e_dim ed = None \/ e_dim ed = Some D)).
      { destruct Q3 as [[Im ->]|[Im ->]].
        - destruct (key_get _ _ Im) as [ed G]. exists ed; split; auto.
          destruct (Hm Im) as [Q|Q]; unfold edim in Q; rewrite G in Q; auto.
        - eexists. split; [simpl; rewrite get_snoc, eqb_refl; auto|]. left; auto. }
      destruct G as (ed & G & [Dd|Dd]); rewrite G, Dd; [eexists; reflexivity|].
      rewrite Nat.eqb_refl. eexists; reflexivity. }
    destruct U as [n2 U]. rewrite (@mbind_eq _ _ _ _ _ n1 n2 tt U).
    pose proof (@target_spec T m (Some D) n n1 n2 tt Q3 U) as Tg.
    destruct Tg as [A1 A2 A3 A4 A5 A6 A7 (em & A8 & A9 & A10 & A11)].
    unfold mbind at 1, getst at 1.
    destruct (@merge_loop_total m D es n2) as [n3 E3]; auto.
    { intros a ed fx G Fx. destruct (eqb_spec a m) as [->|Na].
      - rewrite A8 in G; inversion G; subst ed. rewrite A9 in Fx.
        destruct (get m (edges n)) as [e0|] eqn:G0; [|discriminate].
        destruct (wf_fix W _ G0 Fx) as (d & Dd & L). exists d; split; auto. eapply A11; eauto.
      - rewrite A7 in G by auto. eapply wf_fix; eauto. }
    { unfold edim. rewrite A8. auto. }
    { intros e Ie. unfold edim. destruct (eqb_spec e m) as [->|Na]; [rewrite A8; auto|].
      rewrite A7 by auto. apply He; auto. }
    rewrite (@mbind_eq _ _ _ _ _ n2 n3 tt E3).
    unfold mbind, modify, getst.
    match goal with |- exists n', (if ?b then _ else _) _ = _ => assert (Hb : b = true) end.
    2:{ rewrite Hb. eexists; reflexivity. }
    assert (Im2 : In m (keys (edges n2))) by (apply A5; auto).
    pose proof (merge_loop _ _ _ Im2 E3) as [B1 B2 B3 B4 B5 B6 B7 B8 B9 B10].
    apply forallb_forall. intros a Ia. simpl in Ia. simpl.
    destruct (fold_map_legs (map (merge_label es m)) n3 (dedup_NoDup (concat (map (adj_nodes n2) es))))
      as (F1 & F2 & F3 & F4 & F5 & F6).
    fold (merge_legs (T := T) es m) in *. rewrite F1. rewrite F3 in Ia.
    apply has_In. apply B5. apply in_map_iff in Ia as (b & <- & Ib).
    rewrite B2, A3 in Ib. apply (wf_opens W) in Ib.
    unfold merge_label. destruct (mem_spec b es); auto.
    split; [apply A5; auto|auto].
  Qed.
End Edit2.
