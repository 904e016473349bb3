(** Functional specifications of the remaining edit operations and preservation of
    well-formedness. *)
From Verif Require Import Base ModelTN TNInv.
Set Implicit Arguments.

Section Ops.
  Context {T : Type} `{PT : Payload T}.
  Notation net := (tn T).
  Implicit Types (n : net) (x e : name).

  (** ** loops that rewrite legs *)
  Lemma set_legs_get n x l y nd :
    get x (nodes n) = Some nd ->
    get y (nodes (set_legs n x l)) = if eqb y x then Some (Node l true (n_val nd)) else get y (nodes n).
  Proof. intros E. unfold set_legs. rewrite E. simpl. apply get_set. Qed.

  Definition relegged (f : list name -> list name) (L : list name) x (o : option (node T)) :
    option (node T) :=
    match o with
    | Some nd => Some (if mem x L then Node (f (n_legs nd)) true (n_val nd) else nd)
    | None => None
    end.

  Lemma map_legs_same f n x :
    let n' := map_legs f n x in
    edges n' = edges n /\ adj n' = adj n /\ opens n' = opens n /\ idc n' = idc n /\
    keys (nodes n') = keys (nodes n).
  Proof.
    unfold map_legs, set_legs. destruct (get x (nodes n)) as [nd|] eqn:E; simpl; auto.
    rewrite (set_keys_same _ _ _ E); auto.
  Qed.
  Lemma map_legs_get f n x y :
    get y (nodes (map_legs f n x)) = relegged f [x] y (get y (nodes n)).
  Proof.
    unfold map_legs, relegged. destruct (get x (nodes n)) as [nd|] eqn:E.
    - rewrite (set_legs_get _ _ _ _ E). unfold mem; simpl. rewrite orb_false_r.
      destruct (eqb_spec y x) as [->|N].
      + rewrite E; auto.
      + destruct (get y (nodes n)); auto.
    - unfold mem; simpl. rewrite orb_false_r. destruct (eqb_spec y x) as [->|N].
      + rewrite E; auto.
      + destruct (get y (nodes n)); auto.
  Qed.
  Lemma fold_map_legs f L n :
    NoDup L ->
    let n' := fold_left (map_legs f) L n in
    edges n' = edges n /\ adj n' = adj n /\ opens n' = opens n /\ idc n' = idc n /\
    keys (nodes n') = keys (nodes n) /\
    forall y, get y (nodes n') = relegged f L y (get y (nodes n)).
  Proof.
    revert n; induction L as [|x r IH]; intros n ND; simpl.
    - repeat split; auto. intros y. unfold relegged; simpl. destruct (get y (nodes n)); auto.
    - inversion ND; subst. destruct (IH (map_legs f n x)) as (E1 & E2 & E3 & E4 & E5 & E6); auto.
      destruct (map_legs_same f n x) as (F1 & F2 & F3 & F4 & F5).
      repeat split; try congruence. intros y. rewrite E6, map_legs_get.
      unfold relegged. destruct (get y (nodes n)) as [nd|]; auto.
      unfold mem; simpl. rewrite orb_false_r. fold (mem y r).
      destruct (eqb_spec y x) as [->|N]; simpl; auto.
      apply mem_false in H1. rewrite H1; auto.
  Qed.

  Lemma adj_nodes_In n e x : In x (adj_nodes n e) <-> In (x, e) (adj n).
  Proof.
    unfold adj_nodes. rewrite in_map_iff. split.
    - intros [[a b] [E I]]. apply filter_In in I as [I Q]. simpl in *.
      apply eqb_true in Q. subst; auto.
    - intros I. exists (x, e); split; auto. apply filter_In; split; auto. simpl. apply eqb_refl.
  Qed.
  Lemma adj_edges_In n e x : In e (adj_edges n x) <-> In (x, e) (adj n).
  Proof.
    unfold adj_edges. rewrite in_map_iff. split.
    - intros [[a b] [E I]]. apply filter_In in I as [I Q]. simpl in *.
      apply eqb_true in Q. subst; auto.
    - intros I. exists (x, e); split; auto. apply filter_In; split; auto. simpl. apply eqb_refl.
  Qed.

  (** ** fix *)
  Definition stripped e (nd : node T) : Prop := ~ In e (n_legs nd).

  Lemma filter_negb_notin e l : ~ In e l -> filter (fun i => negb (eqb e i)) l = l.
  Proof.
    induction l as [|a r IH]; simpl; intros N; auto.
    destruct (eqb_spec e a) as [->|]; simpl; [exfalso; auto|]. f_equal; auto.
  Qed.

  (** the graph of [fix1] on a well-formed network *)
  Lemma fix1_spec n e :
    wf n ->
    match get e (edges n) with
    | Some (Edge _ (Some _)) =>
        opens (fix1 n e) = opens n /\
        keys (nodes (fix1 n e)) = keys (nodes n) /\
        (forall x, match get x (nodes n), get x (nodes (fix1 n e)) with
                   | Some nd, Some nd' =>
                       n_legs nd' = filter (fun i => negb (eqb e i)) (n_legs nd) /\
                       n_val nd' = n_val nd
                   | None, None => True
                   | _, _ => False
                   end) /\
        edges (fix1 n e) = (if mem e (opens n) then edges n else del e (edges n)) /\
        adj (fix1 n e) = filter (fun p => negb (eqb e (snd p))) (adj n)
    | _ => fix1 n e = n
    end.
  Proof.
    intros W. unfold fix1. destruct (get e (edges n)) as [[d [fx|]]|] eqn:E; simpl; auto.
    set (L := dedup (adj_nodes n e)).
    destruct (@fold_map_legs (filter (fun i => negb (eqb e i))) L n (dedup_NoDup _))
      as (E1 & E2 & E3 & E4 & E5 & E6).
    fold (strip_leg (T := T) e) in *. set (n1 := fold_left (strip_leg e) L n) in *.
    assert (Q : forall x, match get x (nodes n), get x (nodes n1) with
                   | Some nd, Some nd' =>
                       n_legs nd' = filter (fun i => negb (eqb e i)) (n_legs nd) /\
                       n_val nd' = n_val nd
                   | None, None => True
                   | _, _ => False
                   end).
    { intros x. rewrite E6. unfold relegged. destruct (get x (nodes n)) as [nd|] eqn:G; auto.
      unfold L. destruct (mem x (dedup (adj_nodes n e))) eqn:Mx; simpl; auto. split; auto.
      symmetry. apply filter_negb_notin. intros I.
      apply mem_false in Mx. apply Mx. apply dedup_In, adj_nodes_In, (wf_adj W); eauto. }
    rewrite E3. destruct (mem e (opens n)) eqn:Mo; simpl; rewrite ?E1, ?E2, ?E3; auto.
  Qed.

  Lemma fix1_wf n e : wf n -> wf (fix1 n e).
  Proof.
    intros W. pose proof (fix1_spec e W) as Q.
    destruct (get e (edges n)) as [[d [fx|]]|] eqn:E; [|rewrite Q; auto..].
    destruct Q as (O & K & N & Ed & A). destruct W as [W1 W2 W3 W4 W5 W6 W7].
    assert (Kd : forall e', In e' (keys (edges n)) -> e' <> e -> In e' (keys (edges (fix1 n e)))).
    { intros e' I Ne. rewrite Ed. destruct (mem e (opens n)); auto. apply keys_del_In; auto. }
    constructor.
    - rewrite K; auto.
    - rewrite Ed. destruct (mem e (opens n)); auto. apply keys_del_NoDup; auto.
    - intros x nd e' G I. specialize (N x). rewrite G in N.
      destruct (get x (nodes n)) as [nd0|] eqn:G0; [|tauto]. destruct N as [L _].
      rewrite L in I. apply filter_In in I as [I NE]. apply negb_true_iff, eqb_neq in NE.
      apply Kd; eauto.
    - intros x e'. rewrite A, filter_In, W4. simpl. rewrite negb_true_iff, eqb_neq.
      specialize (N x). split.
      + intros [[nd [G I]] NE]. rewrite G in N.
        destruct (get x (nodes (fix1 n e))) as [nd'|] eqn:G'; [|tauto]. exists nd'; split; auto.
        destruct N as [L _]. rewrite L. apply filter_In; split; auto.
        apply negb_true_iff, eqb_neq; auto.
      + intros [nd' [G' I]]. rewrite G' in N.
        destruct (get x (nodes n)) as [nd|] eqn:G; [|tauto]. destruct N as [L _].
        rewrite L in I. apply filter_In in I as [I NE]. apply negb_true_iff, eqb_neq in NE.
        split; eauto.
    - rewrite A. apply NoDup_filter'; auto.
    - rewrite O. intros a Ia. destruct (eqb_spec a e) as [->|NE].
      + rewrite Ed. apply mem_In in Ia as Ma. rewrite Ma. auto.
      + apply Kd; auto.
    - intros e' ed' fx'. rewrite Ed. destruct (mem e (opens n)); [apply W7|].
      rewrite get_del. destruct (eqb_spec e' e); [discriminate|apply W7].
  Qed.
  Lemma fix_all_wf n : wf n -> wf (fix_all n).
  Proof.
    unfold fix_all. generalize (keys (edges n)) as L. intros L; revert n.
    induction L as [|e r IH]; simpl; intros n W; auto. apply IH, fix1_wf; auto.
  Qed.

  (** ** update_node *)
  Lemma update_node_spec x t n n' r :
    update_node x t n = (n', Ok r) ->
    exists nd, get x (nodes n) = Some nd /\
      grows (with_nodes n (set x (Node (n_legs nd) (n_mut nd) (Some t)) (nodes n))) n' /\
      (forall sh, pshape t = Some sh -> length (n_legs nd) <= length sh).
  Proof.
    unfold update_node. intros E. minvs. destruct (get x (nodes n)) as [nd|] eqn:G; minvs.
    exists nd; split; auto.
    destruct (pshape t) as [sh|].
    - destruct (Nat.leb_spec (length (n_legs nd)) (length sh)); minvs.
      split; [|intros ? Q; inversion Q; subst; auto].
      match type of E with update_dimension ?d ?s = _ =>
        pose proof (update_dimension_grows d s) as Q; rewrite E in Q end. auto.
    - split; [|discriminate].
      match type of E with update_dimension ?d ?s = _ =>
        pose proof (update_dimension_grows d s) as Q; rewrite E in Q end. auto.
  Qed.
  Lemma set_val_wf n x nd t :
    wf n -> get x (nodes n) = Some nd ->
    wf (with_nodes n (set x (Node (n_legs nd) (n_mut nd) t) (nodes n))).
  Proof.
    intros [W1 W2 W3 W4 W5 W6 W7] G. constructor; simpl; auto.
    - rewrite (set_keys_same _ _ _ G); auto.
    - intros y nd' e. rewrite get_set. destruct (eqb_spec y x) as [->|N].
      + intros Q; inversion Q; subst; simpl. eauto.
      + eauto.
    - intros y e. rewrite W4. rewrite get_set. destruct (eqb_spec y x) as [->|N].
      + rewrite G. split; intros [nd' [Q I]]; inversion Q; subst; simpl in *; eexists; split; eauto.
      + tauto.
  Qed.
  Lemma update_node_wf x t n n' r : update_node x t n = (n', Ok r) -> wf n -> wf n'.
  Proof.
    intros E W. apply update_node_spec in E as (nd & G & Gr & _).
    eapply grows_wf; eauto. apply set_val_wf; auto.
  Qed.

  (** ** add_node *)
  Lemma foreach_grows {X} (f : X -> M unit) l n n' :
    (forall y, always grows (f y)) -> foreach f l n = (n', Ok tt) -> grows n n'.
  Proof.
    intros Hf E. pose proof (always_foreach f l grows_refl grows_trans Hf n) as Q.
    rewrite E in Q; auto.
  Qed.

  Lemma grows_key n n' e : grows n n' -> In e (keys (edges n)) -> In e (keys (edges n')).
  Proof. intros G I. destruct (g_keys G) as [new [K _]]. rewrite K, in_app_iff; auto. Qed.
  Lemma grows_dim n n' e ed d :
    grows n n' -> get e (edges n) = Some ed -> e_dim ed = Some d ->
    exists ed', get e (edges n') = Some ed' /\ e_dim ed' = Some d.
  Proof.
    intros G E D. destruct (g_get G _ E) as [ed' [E' [_ L]]]. eauto.
  Qed.

  (** after a successful update_dim1 with a definite dimension the edge has it *)
  Lemma update_dim1_dim e d n n' r :
    update_dim1 e (Some d) n = (n', Ok r) ->
    exists ed, get e (edges n') = Some ed /\ e_dim ed = Some d.
  Proof.
    unfold update_dim1. intros E. minvs. destruct (get e (edges n)) as [ed|] eqn:G; minvs.
    destruct (e_dim ed) as [y|] eqn:D.
    - destruct (Nat.eqb_spec y d); minvs. eauto.
    - minvs. simpl. rewrite get_set_eq. eauto.
  Qed.
  Lemma add_edge_dim e d n n' r :
    add_edge e (Some d) n = (n', Ok r) ->
    exists ed, get r (edges n') = Some ed /\ e_dim ed = Some d.
  Proof.
    intros E. unfold add_edge in E. minv E.
    assert (En : edges n0 = edges n) by (destruct e; minvs; auto).
    destruct (has r (edges n)) eqn:Hs.
    - unfold update_dimension in E1. cbn [foreach fst snd] in E1. minvs.
      eapply update_dim1_dim; eauto.
    - minvs. simpl. rewrite get_app. rewrite En. destruct (get r (edges n)) eqn:G.
      + apply get_Some_key in G. apply has_In in G. congruence.
      + simpl. rewrite eqb_refl. eauto.
  Qed.

  Definition dims_ok n (legs : list name) (sh : list (option nat)) : Prop :=
    forall i e d, nth_error legs i = Some e -> nth_error sh i = Some (Some d) ->
      exists ed, get e (edges n) = Some ed /\ e_dim ed = Some d.

  Lemma add_legs_ok sh (legs : list name) k n n' :
    ~ In NN legs ->
    foreach (add_leg sh) (combine (seq k (length legs)) legs) n = (n', Ok tt) ->
    incl legs (keys (edges n')) /\
    match sh with
    | None => True
    | Some l => k + length legs <= length l \/ legs = [] /\ True
    end /\
    match sh with
    | None => True
    | Some l => forall i e d, nth_error legs i = Some e -> nth_error l (k + i) = Some (Some d) ->
                  exists ed, get e (edges n') = Some ed /\ e_dim ed = Some d
    end.
  Proof.
    revert k n; induction legs as [|e r IH]; intros k n NN' E; cbn [length seq combine foreach] in E.
    - minvs. repeat split.
      + intros a [].
      + destruct sh; auto.
      + destruct sh; auto. intros i e d Q; destruct i; discriminate.
    - minvs. assert (Nr : ~ In NN r) by (simpl in NN'; tauto).
      assert (Ne : e <> NN) by (simpl in NN'; intros ->; tauto).
      assert (G : grows n0 n') by (eapply foreach_grows; eauto; apply add_leg_grows).
      destruct (IH _ _ Nr E) as (I & Lk & Dk).
      unfold add_leg in E0. cbn [fst snd] in E0. destruct sh as [l|].
      + destruct (nth_error l k) as [d0|] eqn:Nk; minvs.
        pose proof E1 as Q1; apply add_edge_ok in Q1 as (G1 & I1 & Q1). specialize (Q1 Ne); subst a.
        assert (Kl : k < length l) by (apply nth_error_Some; congruence).
        repeat split.
        * intros a [<-|Ia]; [eapply grows_key; eauto|auto].
        * left. simpl. destruct Lk as [Lk|[-> _]]; simpl; lia.
        * intros [|i] e' d Q1 Q2; simpl in Q1.
          -- inversion Q1; subst. rewrite Nat.add_0_r, Nk in Q2. inversion Q2; subst.
             apply add_edge_dim in E1 as (ed & G2 & D2). eapply grows_dim; eauto.
          -- apply (Dk i); auto. rewrite <- Q2. f_equal. lia.
      + minvs. pose proof E1 as Q1; apply add_edge_ok in Q1 as (G1 & I1 & Q1). specialize (Q1 Ne); subst a.
        repeat split; auto. intros a [<-|Ia]; [eapply grows_key; eauto|auto].
  Qed.

  Lemma connect_edges es n : incl es (keys (edges n)) ->
    fold_left (fun n e => if has e (edges n) then n
                          else with_edges n (edges n ++ [(e, Edge None None)])) es n = n.
  Proof.
    revert n; induction es as [|e r IH]; intros n I; simpl; auto.
    assert (Q : has e (edges n) = true) by (apply has_In, I; simpl; auto).
    rewrite Q. apply IH. intros a Ia; apply I; simpl; auto.
  Qed.
  Lemma graph_connect_known x es n :
    incl es (keys (edges n)) ->
    graph_connect x es n = with_adj n (add_adjs (adj n) (map (fun e => (x, e)) es)).
  Proof. intros I. unfold graph_connect. rewrite connect_edges; auto. Qed.

  Lemma add_adjs_In l ps p : In p (add_adjs l ps) <-> In p l \/ In p ps.
  Proof.
    unfold add_adjs. revert l; induction ps as [|q r IH]; intros l; simpl; [tauto|].
    rewrite IH. unfold add_adj1. destruct (mem_spec q l).
    - split; [tauto|]. intros [?|[->|?]]; auto.
    - rewrite in_app_iff; simpl. tauto.
  Qed.
  Lemma add_adjs_NoDup l ps : NoDup l -> NoDup (add_adjs l ps).
  Proof.
    unfold add_adjs. revert l; induction ps as [|q r IH]; intros l ND; simpl; auto.
    apply IH. unfold add_adj1. destruct (mem_spec q l); auto. apply NoDup_snoc; auto.
  Qed.

  Lemma get_snoc {B} (k k' : name) (v : B) l :
    ~ In k (keys l) -> get k' (l ++ [(k, v)]) = if eqb k' k then Some v else get k' l.
  Proof.
    intros N. rewrite get_app. simpl. destruct (eqb_spec k' k) as [->|NE].
    - destruct (get k l) eqn:E; auto. apply get_Some_key in E; tauto.
    - destruct (get k' l); auto.
  Qed.
  Lemma set_snoc {B} (k : name) (v w : B) l :
    ~ In k (keys l) -> set k w (l ++ [(k, v)]) = l ++ [(k, w)].
  Proof.
    induction l as [|[a b] r IH]; simpl; intros N.
    - rewrite eqb_refl; auto.
    - destruct (eqb_spec k a) as [->|NE]; [exfalso; auto|]. f_equal; auto.
  Qed.

  Lemma open_edges_known es n n' :
    incl es (keys (edges n)) ->
    foreach (fun e => open_edge e None) es n = (n', Ok tt) ->
    n' = with_opens n (opens n ++ es).
  Proof.
    revert n; induction es as [|e r IH]; intros n I E; cbn [foreach] in E; minvs.
    - rewrite app_nil_r. destruct n'; auto.
    - unfold open_edge in E0. minvs.
      assert (Q : has e (edges n) = true) by (apply has_In, I; simpl; auto).
      rewrite Q in E1. minvs. apply IH in E.
      + subst. simpl. rewrite <- app_assoc. destruct n1; auto.
      + intros a Ia; apply I; simpl; auto.
  Qed.

  Record added n x (legs : list name) (t : T) (is_open : bool) n' : Prop := {
    ad_fresh : ~ In x (keys (nodes n));
    ad_nodes : exists mut, nodes n' = nodes n ++ [(x, Node legs mut (Some t))];
    ad_edges : exists n1, grows n n1 /\ edges n' = edges n1;
    ad_legs : incl legs (keys (edges n'));
    ad_adj : forall p, In p (adj n') <-> In p (adj n) \/ exists e, In e legs /\ p = (x, e);
    ad_adj_nodup : NoDup (adj n) -> NoDup (adj n');
    ad_opens : opens n' = opens n ++ (if is_open then legs else []);
    ad_rank : forall sh, pshape t = Some sh -> length legs <= length sh;
    ad_dims : forall sh, pshape t = Some sh -> dims_ok n' legs sh
  }.

  Definition legs_of (es : option (list name)) (t : T) : list name :=
    match es with
    | Some l => l
    | None => match pshape t with Some sh => range_names (length sh) | None => [] end
    end.

  Lemma range_names_NN k : ~ In NN (range_names k).
  Proof. unfold range_names. intros I. apply in_map_iff in I as [i [E _]]. discriminate. Qed.

  (** [grows] only looks at four components *)
  Lemma grows_rebase n0 n1 n :
    grows n0 n1 -> edges n0 = edges n ->
    grows n (TN (nodes n) (edges n1) (adj n) (opens n) (idc n)).
  Proof.
    intros [A B C [new [K D]] E F] Q. rewrite Q in *. constructor; simpl; auto.
    exists new; auto.
  Qed.

  Lemma add_node_spec x es t op n n' r :
    add_node x es t op n = (n', Ok r) ->
    ~ In NN (legs_of es t) ->
    r = x /\ added n x (legs_of es t) t op n'.
  Proof.
    unfold add_node. intros E NN'. minv E. destruct (has x (nodes n)) eqn:Hx; minv E.
    assert (Nx : ~ In x (keys (nodes n))) by (intros I; apply has_In in I; congruence).
    assert (Q : n0 = n /\ fst a = legs_of es t).
    { unfold legs_of. destruct es as [l|]; [minvs; auto|].
      destruct (pshape t) as [sh|]; minvs; auto. }
    destruct Q as [-> Q]. clear E0. destruct a as [legs mut]. simpl in Q. subst legs.
    set (legs := legs_of es t) in *. minv E. split; auto.
    rename r into x. rename n0 into n2. rename n1 into n5. destruct a. destruct a0. destruct a1.
    set (n0 := with_nodes n (nodes n ++ [(x, Node legs mut None)])) in *.
    assert (G1 : grows n0 n2 ) by (eapply foreach_grows; eauto; apply add_leg_grows).
    unfold enum in E0. destruct (@add_legs_ok (pshape t) legs 0 n0 n2 NN' E0) as (I2 & _ & D2).
    rewrite (@graph_connect_known x legs n2 I2) in E1.
    set (n3 := with_adj n2 (add_adjs (adj n2) (map (fun e => (x, e)) legs))) in *.
    apply update_node_spec in E1 as (nd & Gx & G4 & Rk).
    assert (N2 : nodes n2 = nodes n ++ [(x, Node legs mut None)]) by (rewrite (g_nodes G1); auto).
    simpl in Gx. rewrite N2, get_snoc, eqb_refl in Gx by auto. inversion Gx; subst nd. clear Gx.
    cbn [n_legs n_mut] in *.
    set (n4 := with_nodes n3 _) in G4.
    assert (Ieq : incl legs (keys (edges n5))).
    { intros e Ie. eapply grows_key; [exact G4|]. simpl. auto. }
    assert (En : n' = with_opens n5 (opens n5 ++ (if op then legs else []))).
    { destruct op.
      - apply open_edges_known in E2; auto.
      - minvs. rewrite app_nil_r. destruct n'; auto. }
    assert (Ed : edges n' = edges n5) by (subst n'; auto).
    constructor; auto.
    - exists mut. subst n'. simpl. rewrite (g_nodes G4). simpl. rewrite N2, set_snoc; auto.
    - exists (TN (nodes n) (edges n5) (adj n) (opens n) (idc n)). rewrite Ed; split; auto.
      eapply grows_trans.
      + apply (@grows_rebase n0 n2 n G1 eq_refl).
      + apply (@grows_rebase n4 n5 (TN (nodes n) (edges n2) (adj n) (opens n) (idc n)) G4 eq_refl).
    - rewrite Ed; auto.
    - intros p. subst n'. simpl. rewrite (g_adj G4). simpl. rewrite add_adjs_In, (g_adj G1). simpl.
      split; (intros [?|I]; [auto|right]).
      + apply in_map_iff in I as [e [<- I]]; eauto.
      + destruct I as [e [I ->]]. apply in_map_iff; eauto.
    - intros ND. subst n'. simpl. rewrite (g_adj G4). simpl. apply add_adjs_NoDup.
      rewrite (g_adj G1). auto.
    - subst n'. simpl. rewrite (g_opens G4). simpl. rewrite (g_opens G1). auto.
    - intros sh Es i e d Q1 Q2. rewrite Ed. rewrite Es in D2.
      destruct (D2 i e d Q1 Q2) as (ed & Ge & De). eapply (grows_dim (n := n4)); eauto.
  Qed.

  Lemma added_wf n x legs t op n' : added n x legs t op n' -> wf n -> wf n'.
  Proof.
    intros [Nx [mut N] [n1 [G Ed]] Il A And O _ _] W.
    pose proof (grows_wf G W) as W1.
    assert (K : keys (nodes n') = keys (nodes n) ++ [x]) by (rewrite N, keys_app; auto).
    constructor.
    - rewrite K. apply NoDup_snoc; auto. apply (wf_nodes W).
    - rewrite Ed. apply (wf_edges W1).
    - intros y nd e. rewrite N, get_snoc by auto. destruct (eqb_spec y x) as [->|NE].
      + intros Q; inversion Q; subst; simpl. auto.
      + intros Q I. rewrite Ed. eapply grows_key; eauto. eapply wf_legs; eauto.
    - intros y e. rewrite A, (wf_adj W), N, get_snoc by auto. destruct (eqb_spec y x) as [->|NE].
      + split.
        * intros [[nd [Q _]]|[e' [I Q]]].
          -- apply get_Some_key in Q; tauto.
          -- inversion Q; subst. eexists; split; [reflexivity|]; auto.
        * intros [nd [Q I]]. inversion Q; subst; simpl in *. right; eauto.
      + split.
        * intros [?|[e' [_ Q]]]; auto. congruence.
        * auto.
    - apply And, (wf_adj_nodup W).
    - rewrite O. intros a Ia. apply in_app_iff in Ia as [Ia|Ia].
      + rewrite Ed. eapply grows_key; eauto. apply (wf_opens W); auto.
      + destruct op; [auto|destruct Ia].
    - rewrite Ed. apply (wf_fix W1).
  Qed.
  Lemma add_node_wf x es t op n n' r :
    add_node x es t op n = (n', Ok r) -> ~ In NN (legs_of es t) -> wf n -> wf n'.
  Proof. intros E NN' W. apply add_node_spec in E as [_ A]; auto. eapply added_wf; eauto. Qed.
End Ops.
