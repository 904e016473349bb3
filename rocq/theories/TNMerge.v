(** Functional specifications of merge_edges and rewire. *)
From Verif Require Import Base Scalar NetSpec ModelTN TNInv TNOps TNSpec.
Set Implicit Arguments.

Section Merge.
  Context {T : Type} `{PT : Payload T}.
  Notation net := (tn T).
  Implicit Types (n : net) (x e m : name).

  (** the value [v] is admitted by all fixes on the edges [es] *)
  Definition fix_ok n (es : list name) (v : nat) : bool :=
    forallb (fun e => match get e (edges n) with
                      | Some ed => match e_fix ed with Some fx => mem v fx | None => true end
                      | None => true
                      end) es.

  Lemma filter_ext_in' {X} (f g : X -> bool) l :
    (forall a, In a l -> f a = g a) -> filter f l = filter g l.
  Proof. apply filter_ext_in. Qed.
  Lemma filter_filter {X} (f g : X -> bool) l : filter f (filter g l) = filter (fun b => g b && f b) l.
  Proof.
    induction l as [|a r IH]; simpl; auto. destruct (g a); simpl; rewrite IH; auto.
  Qed.
  Lemma filter_true {X} (f : X -> bool) l : (forall a, In a l -> f a = true) -> filter f l = l.
  Proof.
    induction l as [|a r IH]; simpl; intros Hf; auto. rewrite Hf by auto. f_equal; auto.
  Qed.

  Record step_spec m e n n1 : Prop := {
    st_nodes : nodes n1 = nodes n;
    st_opens : opens n1 = opens n;
    st_idc : idc n1 = idc n;
    st_in : In e (keys (edges n));
    st_keys : forall a, In a (keys (edges n1)) <-> In a (keys (edges n)) /\ (a = m \/ a <> e);
    st_nodup : NoDup (keys (edges n)) -> NoDup (keys (edges n1));
    st_get : forall a, a <> m -> a <> e -> get a (edges n1) = get a (edges n);
    st_m : forall edm, get m (edges n) = Some edm ->
             exists edm', get m (edges n1) = Some edm' /\ e_dim edm' = e_dim edm /\
               edge_values edm' = filter (fix_ok n [e]) (edge_values edm) /\
               (e_fix edm' = e_fix edm \/
                exists d, e_dim edm = Some d /\ e_fix edm' = Some (filter (fix_ok n [e]) (edge_values edm)));
    st_adj : forall x a, In (x, a) (adj n1) <->
               (a = m \/ a <> e) /\ (In (x, a) (adj n) \/ a = m /\ In (x, e) (adj n));
    st_adj_nodup : NoDup (adj n) -> NoDup (adj n1)
  }.

  Lemma merge1_spec m e n n1 r :
    merge1 m e n = (n1, Ok r) -> step_spec m e n n1.
  Proof.
    unfold merge1. intros E. minvs. destruct (get e (edges n)) as [ed|] eqn:G; minvs.
    rename E into E1. pose proof (get_Some_key _ _ G) as Ie.
    (* after the fix *)
    assert (Q : nodes n0 = nodes n /\ opens n0 = opens n /\ idc n0 = idc n /\ adj n0 = adj n /\
                keys (edges n0) = keys (edges n) /\
                (forall a, a <> m -> get a (edges n0) = get a (edges n)) /\
                (forall edm, get m (edges n) = Some edm ->
                   exists edm', get m (edges n0) = Some edm' /\ e_dim edm' = e_dim edm /\
                     edge_values edm' = filter (fix_ok n [e]) (edge_values edm) /\
                     (e_fix edm' = e_fix edm \/
                      exists d, e_dim edm = Some d /\
                        e_fix edm' = Some (filter (fix_ok n [e]) (edge_values edm))))).
    { unfold fix_ok. simpl. rewrite G. destruct (e_fix ed) as [fx|] eqn:F.
      - apply fix_edge_spec in E0 as (edm & d & Gm & Dm & Fv & fx' & -> & Q). simpl.
        rewrite (set_keys_same _ _ _ Gm). repeat split; auto.
        + intros a Na. apply get_set_neq; auto.
        + intros edm0 Gm0. rewrite Gm in Gm0; inversion Gm0; subst edm0.
          rewrite get_set_eq. eexists; split; [reflexivity|]; simpl. split; auto.
          assert (Efx : fx' = filter (fun v => mem v fx && true) (edge_values edm)).
          { unfold edge_values. destruct (e_fix edm) as [old|]; subst; [|rewrite Dm];
              apply filter_ext; intros; rewrite andb_true_r; auto. }
          split; [unfold edge_values at 1; simpl; auto|]. right. exists d. rewrite <- Efx; auto.
      - minvs. repeat split; auto. intros edm Gm. exists edm; repeat split; auto.
        symmetry. apply filter_true. auto. }
    destruct Q as (N0 & O0 & I0 & A0 & K0 & Ga & Gm).
    set (n2 := with_adj n0 (add_adjs (adj n0) (map (fun x => (x, m)) (adj_nodes n0 e)))) in *.
    assert (A2 : forall x a, In (x, a) (adj n2) <-> In (x, a) (adj n) \/ a = m /\ In (x, e) (adj n)).
    { intros x a. simpl. rewrite add_adjs_In, A0, in_map_iff. split; (intros [I|I]; [auto|right]).
      - destruct I as [y [Q I]]. inversion Q; subst. apply adj_nodes_In in I. rewrite A0 in I; auto.
      - destruct I as [-> I]. exists x; split; auto. apply adj_nodes_In. rewrite A0; auto. }
    unfold n2 in A2; simpl in A2.
    destruct (eqb_spec e m) as [->|NE]; minvs.
    - constructor; simpl; auto.
      + intros a. rewrite K0. split; [|tauto]. intros; split; auto.
        destruct (eq_dec_of_eqb a m); auto.
      + rewrite K0; auto.
      + intros x a. rewrite (A2 x a). split; [|tauto]. intros; split; auto.
        destruct (eq_dec_of_eqb a m); auto.
      + intros ND. apply add_adjs_NoDup. rewrite A0; auto.
    - constructor; simpl; auto.
      + intros a. rewrite keys_del_In, K0. split; [intros [? ?]; split; auto|].
        intros [? [->|?]]; split; auto.
      + intros ND. apply keys_del_NoDup. rewrite K0; auto.
      + intros a Na Ne'. rewrite get_del_neq by auto. auto.
      + intros edm Q. rewrite get_del_neq by auto. auto.
      + intros x a. rewrite filter_In. rewrite (A2 x a). simpl. rewrite negb_true_iff, eqb_neq.
        split; [intros [? ?]; split; auto|].
        intros [[->|?] ?]; split; auto.
      + intros ND. apply NoDup_filter', add_adjs_NoDup. rewrite A0; auto.
  Qed.

  Record loop_spec m (es : list name) n n' : Prop := {
    lp_nodes : nodes n' = nodes n;
    lp_opens : opens n' = opens n;
    lp_idc : idc n' = idc n;
    lp_in : incl es (keys (edges n));
    lp_keys : forall a, In a (keys (edges n')) <-> In a (keys (edges n)) /\ (a = m \/ ~ In a es);
    lp_nodup : NoDup (keys (edges n)) -> NoDup (keys (edges n'));
    lp_get : forall a, a <> m -> ~ In a es -> get a (edges n') = get a (edges n);
    lp_m : forall edm, get m (edges n) = Some edm ->
             exists edm', get m (edges n') = Some edm' /\ e_dim edm' = e_dim edm /\
               edge_values edm' = filter (fix_ok n es) (edge_values edm) /\
               (e_fix edm' = e_fix edm \/
                exists d, e_dim edm = Some d /\ e_fix edm' = Some (filter (fix_ok n es) (edge_values edm)));
    lp_adj : forall x a, In (x, a) (adj n') <->
               a = m /\ (In (x, m) (adj n) \/ exists e, In e es /\ In (x, e) (adj n))
               \/ a <> m /\ ~ In a es /\ In (x, a) (adj n);
    lp_adj_nodup : NoDup (adj n) -> NoDup (adj n')
  }.

  Lemma merge_loop m es n n' :
    In m (keys (edges n)) ->
    foreach (merge1 m) es n = (n', Ok tt) -> loop_spec m es n n'.
  Proof.
    revert n; induction es as [|e r IH]; intros n Im E; cbn [foreach] in E; minvs.
    - constructor; simpl; auto; try tauto.
      + intros a [].
      + intros edm G. exists edm. repeat split; auto. symmetry; apply filter_true; auto.
      + intros x a. destruct (eq_dec_of_eqb a m) as [->|N].
        * split; [intros I; left; split; auto|]. intros [[_ [I|[e [[] _]]]]|[? _]]; tauto.
        * split; [intros I; right; auto|]. intros [[? _]|[_ [_ I]]]; [congruence|auto].
    - apply merge1_spec in E0. destruct E0 as [N1 O1 I1 Ie K1 D1 G1 M1 A1 An1].
      assert (Im0 : In m (keys (edges n0))) by (apply K1; auto).
      destruct (IH _ Im0 E) as [N2 O2 I2 Ir K2 D2 G2 M2 A2 An2]. clear IH.
      assert (Nr : forall a, In a r -> a = m \/ a <> e) by (intros a Ia; apply K1, Ir; auto).
      constructor; try congruence.
      + intros a [<-|Ia]; auto. apply K1, Ir; auto.
      + intros a. rewrite K2, K1. simpl.
        intuition congruence.
      + auto.
      + intros a Na Nes. simpl in Nes. rewrite G2, G1; auto.
      + intros edm Gm. destruct (M1 _ Gm) as (edm1 & Gm1 & Dm1 & V1 & F1).
        destruct (M2 _ Gm1) as (edm2 & Gm2 & Dm2 & V2 & F2).
        assert (V12 : edge_values edm2 = filter (fix_ok n (e :: r)) (edge_values edm)).
          { rewrite V2, V1, filter_filter. apply filter_ext_in'. intros v Iv.
            change (fix_ok n (e :: r) v) with (fix_ok n ([e] ++ r) v).
            unfold fix_ok at 3. rewrite forallb_app. fold (fix_ok n [e] v). fold (fix_ok n r v).
            destruct (fix_ok n [e] v) eqn:Fe; simpl; auto.
            assert (Iv1 : In v (edge_values edm1)) by (rewrite V1; apply filter_In; auto).
            unfold fix_ok.
            assert (X : forall l, incl l r ->
             forallb (fun e0 => match get e0 (edges n0) with
                      | Some ed => match e_fix ed with Some fx => mem v fx | None => true end
                      | None => true end) l =
             forallb (fun e0 => match get e0 (edges n) with
                      | Some ed => match e_fix ed with Some fx => mem v fx | None => true end
                      | None => true end) l).
            { induction l as [|b l IHl]; simpl; intros Hl; auto.
              rewrite IHl by (intros z Iz; apply Hl; simpl; auto). f_equal.
              destruct (eq_dec_of_eqb b m) as [->|Nb].
              - rewrite Gm1, Gm.
                assert (T1 : match e_fix edm1 with Some fx => mem v fx | None => true end = true).
                { unfold edge_values in Iv1. destruct (e_fix edm1); auto. apply mem_In; auto. }
                assert (T2 : match e_fix edm with Some fx => mem v fx | None => true end = true).
                { unfold edge_values in Iv. destruct (e_fix edm); auto. apply mem_In; auto. }
                rewrite T1, T2; auto.
              - rewrite G1; auto. destruct (Nr b (Hl b (or_introl eq_refl))); congruence. }
            apply X. intros z; auto. }
        exists edm2. split; [auto|]. split; [congruence|]. split; [auto|].
          rewrite <- V12. unfold edge_values.
          destruct F2 as [F2|(d & D & F2)].
          -- destruct F1 as [F1|(d & D & F1)].
             ++ left; congruence.
             ++ right. exists d; split; auto. rewrite F2, F1. auto.
          -- right. exists d. rewrite <- Dm1. split; auto. rewrite F2; auto.
      + intros x a. rewrite A2. split.
        * intros [[-> [I|[e' [I1' I2']]]]|[Na [Nr' I]]].
          -- left. split; auto. apply A1 in I as [_ [I|[_ I]]]; auto.
             right; exists e; simpl; auto.
          -- left; split; auto. apply A1 in I2' as [_ [I|[_ I]]]; right;
               [exists e'|exists e]; simpl; auto.
          -- right. apply A1 in I as [[?|Ne] [I|[? I]]]; try congruence.
             split; auto. simpl. split; auto. intros [?|?]; auto.
        * intros [[-> [I|[e' [[<-|I1'] I2']]]]|[Na [Nr' I]]].
          -- left; split; auto. left. apply A1; auto.
          -- left; split; auto. left. apply A1; auto.
          -- left; split; auto. destruct (eq_dec_of_eqb e' m) as [->|Ne'].
             ++ left; apply A1; auto.
             ++ right. exists e'; split; auto. apply A1. split; auto.
          -- simpl in Nr'. right. repeat split; auto. apply A1. split; auto.
      + auto.
  Qed.

  Lemma last_dim_spec es d0 n n' d :
    last_dim es d0 n = (n', Ok d) ->
    n' = n /\ incl es (keys (edges n)) /\
    (forall D, (forall e ed, In e es -> get e (edges n) = Some ed -> e_dim ed = D) ->
               es <> [] -> d = D).
  Proof.
    revert d0; induction es as [|e r IH]; intros d0 E; cbn [last_dim] in E; minvs.
    - repeat split; auto; [intros a []|congruence].
    - destruct (get e (edges n)) as [ed|] eqn:G; minvs. apply IH in E as Q. destruct Q as (-> & I & Q).
      repeat split; auto.
      + intros a [<-|Ia]; auto. eapply get_Some_key; eauto.
      + intros D HD _. destruct r as [|e' r'].
        * cbn [last_dim] in E. minvs. apply (HD e); simpl; auto.
        * apply Q; [|congruence]. intros a ed' Ia. apply HD; simpl; auto.
  Qed.

  (** what a successful merge does *)
  Record merged n (es : list name) m n' : Prop := {
    mg_in : incl es (keys (edges n));
    mg_keys : forall a, In a (keys (edges n')) <-> a = m \/ In a (keys (edges n)) /\ ~ In a es;
    mg_nodup : NoDup (keys (edges n'));
    mg_get : forall a, a <> m -> ~ In a es -> get a (edges n') = get a (edges n);
    mg_m : exists edm edm',
             match get m (edges n) with
             | Some ed => e_fix edm = e_fix ed /\ (forall d, e_dim ed = Some d -> e_dim edm = Some d)
             | None => e_fix edm = None
             end /\
             (forall D, (forall e ed, In e es -> get e (edges n) = Some ed -> e_dim ed = Some D) ->
                        es <> [] -> e_dim edm = Some D) /\
             get m (edges n') = Some edm' /\ e_dim edm' = e_dim edm /\
             edge_values edm' = filter (fix_ok n es) (edge_values edm) /\
             (e_fix edm' = e_fix edm \/
              exists d, e_dim edm = Some d /\ e_fix edm' = Some (filter (fix_ok n es) (edge_values edm)));
    mg_node_keys : keys (nodes n') = keys (nodes n);
    mg_nodes : forall x, match get x (nodes n), get x (nodes n') with
                 | Some nd, Some nd' => n_legs nd' = map (merge_label es m) (n_legs nd) /\
                                        n_val nd' = n_val nd
                 | None, None => True
                 | _, _ => False
                 end;
    mg_opens : opens n' = map (merge_label es m) (opens n);
    mg_adj : forall x a, In (x, a) (adj n') <->
               a = m /\ (In (x, m) (adj n) \/ exists e, In e es /\ In (x, e) (adj n))
               \/ a <> m /\ ~ In a es /\ In (x, a) (adj n);
    mg_adj_nodup : NoDup (adj n')
  }.

  Lemma merge_label_id es m l : (forall e, In e l -> ~ In e es) -> map (merge_label es m) l = l.
  Proof.
    intros Hl. rewrite <- (map_id l) at 2. apply map_ext_in. intros e Ie. unfold merge_label.
    apply Hl in Ie. apply mem_false in Ie. rewrite Ie; auto.
  Qed.

  Lemma sorted_last_In es m : sorted_last es = Ok m -> In m es.
  Proof.
    assert (SL : forall x l z, max_from x l = Ok z -> In z (x :: l)).
    { intros x l; revert x; induction l as [|y l IHl]; simpl; intros x z Q.
      - inversion Q; auto.
      - destruct (name_lt x y) as [b|]; simpl in Q; [|discriminate].
        apply IHl in Q. destruct b, Q as [Q|Q]; auto. }
    destruct es; simpl; [discriminate|]. apply SL.
  Qed.

  (** the state after the target edge was found or created and got its dimension *)
  Record targeted n m (d : option nat) n2 : Prop := {
    tg_nodes : nodes n2 = nodes n;
    tg_adj : adj n2 = adj n;
    tg_opens : opens n2 = opens n;
    tg_idc : idc n2 = idc n;
    tg_keys : forall a, In a (keys (edges n2)) <-> a = m \/ In a (keys (edges n));
    tg_nodup : NoDup (keys (edges n)) -> NoDup (keys (edges n2));
    tg_get : forall a, a <> m -> get a (edges n2) = get a (edges n);
    tg_m : exists em, get m (edges n2) = Some em /\
             e_fix em = match get m (edges n) with Some ed => e_fix ed | None => None end /\
             (forall z, d = Some z -> e_dim em = Some z) /\
             (forall ed z, get m (edges n) = Some ed -> e_dim ed = Some z -> e_dim em = Some z)
  }.

  Lemma merge_target es mt n n1 m :
    incl es (keys (edges n)) ->
    match mt with
    | NN => lift (sorted_last es)
    | _ => let! n := getst in if has mt (edges n) then ret mt else add_edge mt None
    end n = (n1, Ok m) ->
    (mt <> NN -> m = mt) /\ (mt = NN -> In m es) /\
    (In m (keys (edges n)) /\ n1 = n \/
     ~ In m (keys (edges n)) /\ n1 = with_edges n (edges n ++ [(m, Edge None None)])).
  Proof.
    intros Ies E. destruct mt.
    { unfold lift in E. inversion E; subst. apply sorted_last_In in H1.
      split; [congruence|]. split; auto. }
    all: minv E;
      match type of E with (if has ?k _ then _ else _) _ = _ =>
        destruct (has k (edges n)) eqn:Hs end; minvs;
      [apply has_In in Hs; split; auto; split; auto; congruence|];
      unfold add_edge in E; minv E; rewrite Hs in E0; minvs;
      (split; [auto|]); (split; [congruence|]); right; split; auto; rewrite <- has_In; congruence.
  Qed.

  Lemma target_spec m d n n1 n2 r :
    In m (keys (edges n)) /\ n1 = n \/
    ~ In m (keys (edges n)) /\ n1 = with_edges n (edges n ++ [(m, Edge None None)]) ->
    update_dimension [(m, d)] n1 = (n2, Ok r) -> targeted n m d n2.
  Proof.
    intros Hm E. unfold update_dimension in E. cbn [foreach fst snd] in E. minvs.
    unfold update_dim1 in E0. minvs. destruct (get m (edges n1)) as [ed|] eqn:G; [|discriminate].
    assert (T1 : targeted n m None n1).
    { destruct Hm as [[I ->]|[I ->]].
      - constructor; auto.
        + intros a; split; auto. intros [->|?]; auto.
        + rewrite G. exists ed. repeat split; auto; [discriminate|]. congruence.
      - constructor; simpl; auto.
        + intros a. rewrite keys_app, in_app_iff. simpl. intuition auto.
        + intros ND. rewrite keys_app. apply NoDup_snoc; auto.
        + intros a Na. rewrite get_snoc by auto. apply eqb_neq in Na. rewrite Na; auto.
        + rewrite get_snoc, eqb_refl by auto. apply get_None in I. rewrite I.
          eexists; split; [reflexivity|]. simpl. repeat split; auto; discriminate. }
    destruct T1 as [A1 A2 A3 A4 A5 A6 A7 (em & A8 & A9 & _ & A10)].
    assert (em = ed) by congruence; subst em.
    destruct (e_dim ed) as [z|] eqn:D.
    - assert (n2 = n1 /\ forall y, d = Some y -> z = y) as [-> Hy].
      { destruct d as [y|]; [destruct (Nat.eqb_spec z y)|]; minvs; split; auto; congruence. }
      constructor; auto. exists ed. repeat split; auto; rewrite D.
      + intros y Ey. rewrite (Hy _ Ey); auto.
      + intros ed0 y G0 D0. exact (A10 _ _ G0 D0).
    - minvs. constructor; simpl; auto.
      + intros a. rewrite <- A5, keys_set_In. split; [|auto]. intros [->|?]; auto.
        eapply get_Some_key; eauto.
      + intros ND. apply keys_set_NoDup; auto.
      + intros a Na. rewrite get_set_neq; auto.
      + rewrite get_set_eq. eexists; split; [reflexivity|]; simpl. repeat split; auto.
        intros ed0 y G0 D0. discriminate (A10 _ _ G0 D0).
  Qed.

  Lemma relegged_none (f : list name -> list name) L x (o : option (node T)) :
    o = None -> relegged f L x o = None.
  Proof. intros ->; reflexivity. Qed.

  Lemma merge_edges_spec es mt n n' m :
    wf n -> merge_edges es mt n = (n', Ok m) ->
    merged n es m n' /\ (mt <> NN -> m = mt) /\ (mt = NN -> In m es).
  Proof.
    intros W E. unfold merge_edges in E. apply mbind_ok in E as (n0 & d & Ed & E).
    apply last_dim_spec in Ed as (-> & Ies & HD).
    apply mbind_ok in E as (n1 & m' & Em & E).
    apply mbind_ok in E as (n2 & [] & Eu & E).
    apply merge_target in Em as (Q1 & Q2 & Q3); auto.
    apply target_spec with (1 := Q3) in Eu. clear Q3.
    minv E. destruct (forallb _ _) eqn:Fo in E; minvs.
    split; [|split; auto].
    destruct Eu as [A1 A2 A3 A4 A5 A6 A7 (em & A8 & A9 & A10 & A11)].
    assert (Im2 : In m (keys (edges n2))) by (apply A5; auto).
    pose proof (merge_loop _ _ _ Im2 E0) as [B1 B2 B3 B4 B5 B6 B7 B8 B9 B10].
    destruct (fold_map_legs (map (merge_label es m)) n0 (dedup_NoDup (concat (map (adj_nodes n2) es))))
      as (E1 & E2 & E3 & E4 & E5 & E6).
    fold (merge_legs (T := T) es m) in *.
    set (n3 := fold_left (merge_legs es m) (dedup (concat (map (adj_nodes n2) es))) n0) in *.
    assert (Fx : forall v, In v (edge_values em) -> fix_ok n2 es v = fix_ok n es v).
    { intros v Iv. unfold fix_ok.
      assert (X : forall l,
         forallb (fun e0 => match get e0 (edges n2) with
                  | Some ed => match e_fix ed with Some fx => mem v fx | None => true end
                  | None => true end) l =
         forallb (fun e0 => match get e0 (edges n) with
                  | Some ed => match e_fix ed with Some fx => mem v fx | None => true end
                  | None => true end) l).
      { induction l as [|b l IHl]; simpl; auto. rewrite IHl. f_equal.
        destruct (eq_dec_of_eqb b m) as [->|Nb]; [|rewrite A7; auto].
        rewrite A8, A9. destruct (get m (edges n)); auto. }
      apply X. }
    constructor; simpl.
    - auto.
    - intros a. rewrite E1, B5, A5. intuition auto.
    - rewrite E1. apply B6, A6, W.
    - intros a Na Nes. rewrite E1, B7, A7; auto.
    - rewrite E1. destruct (B8 _ A8) as (edm' & C1 & C2 & C3 & C4).
      assert (FE : filter (fix_ok n2 es) (edge_values em) = filter (fix_ok n es) (edge_values em)).
      { apply filter_ext_in. auto. }
      rewrite FE in C3, C4. exists em, edm'. repeat split; auto.
      + destruct (get m (edges n)); auto. split; auto. intros z. eauto.
    - rewrite E5, B1, A1; auto.
    - intros x. rewrite E6, B1, A1. unfold relegged. destruct (get x (nodes n)) as [nd|] eqn:G; auto.
      destruct (mem_spec x (dedup (concat (map (adj_nodes n2) es)))) as [I|I]; simpl; auto.
      split; auto. symmetry. apply merge_label_id. intros e Ie Ies'. apply I.
      apply dedup_In, in_concat. exists (adj_nodes n2 e). split; [apply in_map; auto|].
      apply adj_nodes_In. rewrite A2. apply (wf_adj W). eauto.
    - rewrite E3, B2, A3; auto.
    - intros x a. rewrite E2, B9, A2. reflexivity.
    - rewrite E2. apply B10. rewrite A2. apply W.
  Qed.

  Lemma merged_wf n es m n' : merged n es m n' -> wf n -> wf n'.
  Proof.
    intros [M1 M2 M3 M4 (em & em' & M5 & M6 & M7 & M8 & M9 & M10) M11 M12 M13 M14 M15] W.
    assert (KE : forall e, In e (keys (edges n)) -> In (merge_label es m e) (keys (edges n'))).
    { intros e Ie. apply M2. unfold merge_label. destruct (mem_spec e es); auto. }
    constructor; auto.
    - rewrite M11; apply W.
    - intros x nd e G I. specialize (M12 x). rewrite G in M12.
      destruct (get x (nodes n)) as [nd0|] eqn:G0; [|tauto].
      destruct M12 as [L _]. rewrite L in I. apply in_map_iff in I as [e0 [<- I]].
      apply KE. eapply (wf_legs W); eauto.
    - intros x e. rewrite M14. specialize (M12 x).
      destruct (get x (nodes n)) as [nd0|] eqn:G0.
      + destruct (get x (nodes n')) as [nd|] eqn:G; [|tauto]. destruct M12 as [L _].
        assert (A : forall e0, In (x, e0) (adj n) <-> In e0 (n_legs nd0)).
        { intros e0. rewrite (wf_adj W). split; [intros (nd1 & Q & I)|eauto].
          rewrite G0 in Q; inversion Q; subst; auto. }
        transitivity (In e (n_legs nd)).
        2:{ split; [eauto|]. intros (nd1 & Q & I). inversion Q; subst; auto. }
        rewrite L, in_map_iff. unfold merge_label. split.
        * intros [[-> [I|[e0 [I0 I]]]]|[Ne [Nes I]]]; apply A in I.
          -- exists m. split; auto. destruct (mem m es); auto.
          -- exists e0. split; auto. apply mem_In in I0. rewrite I0; auto.
          -- exists e. split; auto. apply mem_false in Nes. rewrite Nes; auto.
        * intros [e0 [Q I]]. apply A in I. destruct (mem_spec e0 es).
          -- subst e. left. split; auto. right; eauto.
          -- subst e. destruct (eq_dec_of_eqb e0 m) as [->|]; auto.
      + destruct (get x (nodes n')) as [nd|] eqn:G; [tauto|].
        split; [|intros (nd1 & Q & _); discriminate].
        intros [[-> [I|[e0 [I0 I]]]]|[Ne [Nes I]]]; apply (wf_adj W) in I as (nd & Q & _); congruence.
    - rewrite M13. intros e I. apply in_map_iff in I as [e0 [<- I]]. apply KE, (wf_opens W); auto.
    - intros e ed fx G F. destruct (eq_dec_of_eqb e m) as [->|Ne].
      + rewrite M7 in G; inversion G; subst ed. rewrite M8.
        assert (X : forall fx0, e_fix em = Some fx0 ->
                    exists d, e_dim em = Some d /\ Forall (fun v => v < d) fx0).
        { intros fx0 F0. destruct (get m (edges n)) as [ed0|] eqn:G0; [|congruence].
          destruct M5 as [Q1 Q2]. destruct (@wf_fix _ n W m ed0 fx0 G0) as [d [D1 D2]];
            [congruence|]. exists d; auto. }
        destruct M10 as [Q|(d & D & Q)].
        * apply X. congruence.
        * exists d; split; auto. rewrite Q in F; inversion F; subst. apply Forall_filter.
          unfold edge_values. destruct (e_fix em) as [fx0|].
          -- destruct (X _ eq_refl) as [d' [D1 D2]]. replace d with d' by congruence. auto.
          -- rewrite D. apply Forall_forall. intros v Iv. apply in_seq in Iv. lia.
      + assert (Nes : ~ In e es).
        { intros I. pose proof (get_Some_key _ _ G) as I'. apply M2 in I'. tauto. }
        rewrite M4 in G by auto. eapply (wf_fix W); eauto.
  Qed.

  Lemma merge_edges_wf es mt n n' m : merge_edges es mt n = (n', Ok m) -> wf n -> wf n'.
  Proof. intros E W. eapply merged_wf; eauto. eapply merge_edges_spec; eauto. Qed.
End Merge.
