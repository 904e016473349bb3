(** Sub-networks: what subtn builds. *)
From Verif Require Import Base Scalar NetSpec Sums NetAlg ModelArray ModelTN TNInv TNOps TNSpec TNMerge TNDelta TNValue
  TNValue2 TNExact TNEdit TNEdit2 ModelVal ModelOps OpsProofs ModelNest NestSpec.
Set Implicit Arguments.

Section Dims.
  Context {T : Type} `{PT : Payload T}.
  Notation net := (tn T).
  Implicit Types (n : net) (x e : name).
  Variable D : name -> nat.

  (** the effect of one leg of dimension [D e] on the edges *)
  Definition put_dim (E : list (name * edge)) (e : name) : list (name * edge) :=
    match get e E with
    | Some ed => match e_dim ed with None => set e (Edge (Some (D e)) (e_fix ed)) E | Some _ => E end
    | None => E ++ [(e, Edge (Some (D e)) None)]
    end.
  Definition dims_of (E : list (name * edge)) : Prop :=
    forall e ed d, get e E = Some ed -> e_dim ed = Some d -> d = D e.

  Lemma put_dim_get E e a : dims_of E ->
    get a (put_dim E e) =
    if eqb a e then Some (Edge (Some (D e)) (match get e E with Some ed => e_fix ed | None => None end)) else get a E.
  Proof.
    intros H. unfold put_dim. destruct (get e E) as [[dm fx]|] eqn:G; simpl.
    - destruct dm as [d|].
      + destruct (eqb_spec a e) as [->|N]; auto. rewrite G. rewrite (H e _ d G eq_refl). reflexivity.
      + rewrite get_set. destruct (eqb_spec a e); auto.
    - rewrite get_app. simpl. destruct (eqb_spec a e) as [->|N].
      + rewrite G. auto.
      + destruct (get a E); auto.
  Qed.
  Lemma put_dim_dims E e : dims_of E -> dims_of (put_dim E e).
  Proof.
    intros H a ed d. rewrite put_dim_get by auto. destruct (eqb_spec a e) as [->|N]; [|eauto].
    intros Q Z. injection Q as <-. simpl in Z. congruence.
  Qed.
  Lemma put_dim_keys E e a : In a (keys (put_dim E e)) <-> In a (keys E) \/ a = e.
  Proof.
    unfold put_dim. destruct (get e E) as [[dm fx]|] eqn:G; simpl.
    - apply get_Some_key in G. destruct dm; [|rewrite keys_set_In]; intuition (subst; auto).
    - rewrite keys_app, in_app_iff. simpl. intuition auto.
  Qed.
  Lemma put_dim_nodup E e : NoDup (keys E) -> NoDup (keys (put_dim E e)).
  Proof.
    intros ND. unfold put_dim. destruct (get e E) as [[dm fx]|] eqn:G; simpl.
    - destruct dm; auto. apply keys_set_NoDup; auto.
    - rewrite keys_app. apply NoDup_snoc; auto. apply get_None; auto.
  Qed.
  Definition put_dims (E : list (name * edge)) (l : list name) : list (name * edge) := fold_left put_dim l E.
  Lemma put_dims_spec l : forall E, dims_of E ->
    dims_of (put_dims E l) /\
    (forall a, In a (keys (put_dims E l)) <-> In a (keys E) \/ In a l) /\
    (NoDup (keys E) -> NoDup (keys (put_dims E l))) /\
    (forall a, get a (put_dims E l) =
       if mem a l then Some (Edge (Some (D a)) (match get a E with Some ed => e_fix ed | None => None end))
       else get a E).
  Proof.
    induction l as [|e l IH]; intros E H; simpl.
    - split; auto. split; [intros; tauto|]. split; auto.
    - destruct (IH (put_dim E e) (put_dim_dims e H)) as (A & B & C & G).
      split; auto. split; [|split].
      + intros a. rewrite B, put_dim_keys. intuition auto.
      + intros ND. apply C, put_dim_nodup; auto.
      + intros a. rewrite G. rewrite put_dim_get by auto. change (mem a (e :: l)) with (eqb a e || mem a l).
        destruct (eqb_spec a e) as [->|N]; simpl; [|reflexivity]. destruct (mem e l); reflexivity.
  Qed.

  Lemma add_legs_dims sh : forall legs n pre rest,
    sh = pre ++ map (fun e => Some (D e)) legs ++ rest -> ~ In NN legs -> dims_of (edges n) ->
    foreach (add_leg (Some sh)) (combine (seq (length pre) (length legs)) legs) n =
    (with_edges n (put_dims (edges n) legs), Ok tt).
  Proof.
    induction legs as [|e r IH]; intros n pre rest Esh Hn Hd.
    - simpl. rewrite with_edges_same. reflexivity.
    - cbn [combine seq length foreach]. unfold mbind, add_leg at 1. cbn [fst snd].
      assert (Q : nth_error sh (length pre) = Some (Some (D e))).
      { rewrite Esh. simpl. apply nth_error_app2'. }
      rewrite Q. unfold mbind.
      assert (Ne : e <> NN) by (simpl in Hn; intros ->; tauto).
      assert (A : add_edge e (Some (D e)) n = (with_edges n (put_dim (edges n) e), Ok e)).
      { unfold put_dim. destruct (get e (edges n)) as [[dm fx]|] eqn:G; simpl.
        - destruct dm as [d|].
          + rewrite with_edges_same. apply add_edge_same; auto; [eapply get_Some_key; eauto|].
            right. unfold edim. rewrite G. simpl. rewrite (Hd e _ d G eq_refl). auto.
          + unfold add_edge. cbv [mbind getst]. assert (Hs : has e (edges n) = true) by (apply has_In; eapply get_Some_key; eauto).
            destruct e; [congruence|..]; cbn [ret]; rewrite Hs; unfold update_dimension; cbn [foreach];
              unfold update_dim1; cbv [mbind getst]; cbn [fst snd]; rewrite G; reflexivity.
        - apply add_edge_fresh; auto. apply get_None; auto. }
      rewrite A. change (ret tt ?q) with (q, Ok tt : res unit). cbn iota beta.
      replace (Datatypes.S (length pre)) with (length (pre ++ [Some (D e)])) by (rewrite app_length; simpl; lia).
      rewrite (IH _ (pre ++ [Some (D e)]) rest).
      + reflexivity.
      + rewrite Esh, <- !app_assoc. reflexivity.
      + simpl in Hn; tauto.
      + simpl. apply put_dim_dims; auto.
  Qed.

  Lemma add_node_dims x legs t op n :
    ~ In x (keys (nodes n)) -> ~ In NN legs -> dims_of (edges n) ->
    pshape t = Some (map (fun e => Some (D e)) legs) ->
    add_node x (Some legs) t op n =
    (plus_node' (with_edges n (put_dims (edges n) legs)) x legs true t op, Ok x).
  Proof.
    intros Nx Hn Hd Sh. destruct (put_dims_spec legs Hd) as (A & B & C & G).
    apply add_node_grow; auto.
    - intros a Ia. apply B; auto.
    - rewrite Sh. f_equal. apply map_ext_in. intros a Ia. unfold edim. simpl. rewrite G.
      rewrite (proj2 (mem_In a legs) Ia). reflexivity.
    - intros n0 E0. rewrite Sh, <- E0. unfold enum. apply (@add_legs_dims _ legs n0 [] []); auto.
      + rewrite app_nil_r. reflexivity.
      + rewrite E0; auto.
  Qed.
End Dims.

Section Sub.
  Context {S : scalar}.
  Notation tval := (tval S).
  Notation net := (tn tval).
  Implicit Types (n m : net) (x e : name).

  Lemma new_tn_exact (os : list name) : ~ In NN os ->
    exists E, new_tn (T := tval) os None = (TN [] E [] os 0, Ok tt) /\ NoDup (keys E) /\
      forall e, get e E = if mem e os then Some (Edge None None) else None.
  Proof.
    intros Hn. unfold new_tn.
    assert (L : forall os n, ~ In NN os -> (forall e ed, get e (edges n) = Some ed -> ed = Edge None None) -> NoDup (keys (edges n)) ->
      exists E, foreach (fun e => let! _ := add_edge e None in ret tt) os n = (with_edges n E, Ok tt) /\ NoDup (keys E) /\
        forall e, get e E = if mem e os then Some (Edge None None) else get e (edges n)).
    { clear. induction os as [|a os IH]; intros n Hn He ND; simpl foreach.
      - exists (edges n). rewrite with_edges_same. auto.
      - assert (Na : a <> NN) by (simpl in Hn; intros ->; tauto).
        destruct (get a (edges n)) as [ed|] eqn:G.
        + unfold mbind at 1. unfold mbind at 1. rewrite add_edge_same; auto; [|eapply get_Some_key; eauto].
          cbn [ret]. destruct (IH n) as (E & A & B & C); auto; [simpl in Hn; tauto|].
          exists E. split; [exact A|]. split; auto. intros e. rewrite C. change (mem e (a :: os)) with (eqb e a || mem e os).
          destruct (eqb_spec e a) as [->|N]; simpl; auto. rewrite G. rewrite (He _ _ G). destruct (mem a os); auto.
        + unfold mbind at 1. unfold mbind at 1. rewrite add_edge_fresh; auto; [|apply get_None; auto]. cbn [ret].
          set (n1 := with_edges n (edges n ++ [(a, Edge None None)])).
          destruct (IH n1) as (E & A & B & C); [simpl in Hn; tauto| | |].
          * intros e ed. unfold n1; simpl. rewrite get_app. simpl. destruct (get e (edges n)) eqn:Ge.
            -- intros Q; injection Q as <-. eauto.
            -- destruct (eqb e a); congruence.
          * unfold n1; simpl. rewrite keys_app. apply NoDup_snoc; auto. apply get_None; auto.
          * exists E. split; [exact A|]. split; auto. intros e. rewrite C. unfold n1; simpl edges. rewrite get_app.
            change (mem e (a :: os)) with (eqb e a || mem e os). simpl.
            destruct (eqb_spec e a) as [->|N]; simpl; auto.
            -- rewrite G. destruct (mem a os); auto.
            -- destruct (mem e os); auto. destruct (get e (edges n)); auto. }
    destruct (L os (@empty_tn tval) Hn) as (E & A & B & C).
    - intros e ed Q. discriminate.
    - constructor.
    - exists E. split; [|split; auto]. unfold mbind at 1. rewrite A. reflexivity.
  Qed.


  Definition touched n (xs : list name) e : Prop := exists x nd, In x xs /\ get x (nodes n) = Some nd /\ In e (n_legs nd).
  Lemma node_edges_In n xs e : wf n -> In e (node_edges n xs) <-> touched n xs e.
  Proof.
    intros W. unfold node_edges, touched. rewrite dedup_In, in_concat. split.
    - intros (l & I & J). apply in_map_iff in I as (x & <- & I). unfold adj_edges in J.
      apply in_map_iff in J as ([y z] & <- & J). apply filter_In in J as [J Q]. simpl in Q. apply eqb_true in Q. subst y.
      apply (wf_adj W) in J as (nd & G & J). exists x, nd. auto.
    - intros (x & nd & I & G & J). exists (adj_edges n x). split; [apply in_map; auto|]. unfold adj_edges.
      apply in_map_iff. exists (x, e). split; auto. apply filter_In. split; [|simpl; apply eqb_refl].
      apply (wf_adj W). eauto.
  Qed.
  Lemma touched_app n xs ys e : touched n (xs ++ ys) e <-> touched n xs e \/ touched n ys e.
  Proof.
    unfold touched. split.
    - intros (x & nd & I & G & J). apply in_app_iff in I as [I|I]; [left|right]; exists x, nd; auto.
    - intros [(x & nd & I & G & J)|(x & nd & I & G & J)]; exists x, nd; rewrite in_app_iff; auto.
  Qed.

  (** the nodes that were chosen, as the new network has them *)
  Definition picked n (xs : list name) : list (name * node tval) :=
    concat (map (fun x => match get x (nodes n) with Some nd => [(x, Node (n_legs nd) true (n_val nd))] | None => [] end) xs).
  Lemma picked_keys n xs : incl xs (keys (nodes n)) -> keys (picked n xs) = xs.
  Proof.
    unfold picked. induction xs as [|x xs IH]; intros I; simpl; auto.
    destruct (key_get _ _ (I x (or_introl eq_refl))) as [nd G]. rewrite G. simpl. f_equal. apply IH.
    intros a Ia. apply I. simpl; auto.
  Qed.
  Lemma picked_get n xs x : get x (picked n xs) = if mem x xs then match get x (nodes n) with
      Some nd => Some (Node (n_legs nd) true (n_val nd)) | None => None end else None.
  Proof.
    unfold picked. induction xs as [|y xs IH]; simpl; auto. rewrite get_app. change (mem x (y :: xs)) with (eqb x y || mem x xs).
    destruct (eqb_spec x y) as [->|N]; simpl.
    - destruct (get y (nodes n)) eqn:G; simpl; [rewrite eqb_refl; auto|]. rewrite IH. destruct (mem y xs); auto.
    - destruct (get y (nodes n)) eqn:G; simpl; auto. rewrite (proj2 (eqb_neq _ _) N). auto.
  Qed.

  Record sub_state n (os xs : list name) m : Prop := {
    ss_wf : wf m;
    ss_nodes : nodes m = picked n xs;
    ss_opens : opens m = os;
    ss_keys : forall e, In e (keys (edges m)) <-> In e os \/ touched n xs e;
    ss_hit : forall e, touched n xs e -> get e (edges m) = Some (Edge (edim n e) None);
    ss_miss : forall e, ~ touched n xs e -> In e os -> get e (edges m) = Some (Edge None None)
  }.

  Lemma touched_dec n xs e : wf n -> {touched n xs e} + {~ touched n xs e}.
  Proof.
    intros W. destruct (mem e (node_edges n xs)) eqn:Q; [left|right].
    - apply mem_In in Q. apply node_edges_In; auto.
    - intros H. apply mem_false in Q. apply Q, node_edges_In; auto.
  Qed.

  Lemma sub_nodes_ok n os : inv n -> sized n -> forall xs ys m,
    sub_state n os ys m -> NoDup (ys ++ xs) -> incl (ys ++ xs) (keys (nodes n)) ->
    exists m', foreach (sub_node n) xs m = (m', Ok tt) /\ sub_state n os (ys ++ xs) m'.
  Proof.
    intros [W NNn] Sz. induction xs as [|x xs IH]; intros ys m SS ND I; simpl foreach.
    { exists m. rewrite app_nil_r. auto. }
    assert (Ix : In x (keys (nodes n))) by (apply I, in_app_iff; simpl; auto).
    destruct (key_get _ _ Ix) as [nd G].
    destruct (Sz x nd G) as (t & Et & Sh & Kn).
    set (D := fun e => match edim n e with Some d => d | None => 0 end).
    assert (HD : forall e, In e (n_legs nd) -> edim n e = Some (D e)).
    { intros e Ie. unfold D. specialize (Kn e Ie). destruct (edim n e); [auto|congruence]. }
    assert (Lk : incl (n_legs nd) (keys (edges n))) by (intros e Ie; eapply (wf_legs W); eauto).
    assert (Nl : ~ In NN (n_legs nd)) by (intros Q; apply NNn, Lk; auto).
    assert (Dm : dims_of D (edges m)).
    { intros e ed d Ge Gd. destruct (touched_dec ys e W) as [H|H].
      - rewrite (ss_hit SS H) in Ge. injection Ge as <-. simpl in Gd. unfold D. rewrite Gd. auto.
      - assert (In e os). { pose proof (get_Some_key _ _ Ge) as K. apply (ss_keys SS) in K. tauto. }
        rewrite (ss_miss SS H) in Ge by auto. injection Ge as <-. discriminate. }
    assert (Nx : ~ In x (keys (nodes m))).
    { rewrite (ss_nodes SS), picked_keys.
      - intros J. apply NoDup_app_iff in ND as (_ & _ & H). apply (H x); simpl; auto.
      - intros y Iy. apply I, in_app_iff; auto. }
    assert (Shp : pshape t = Some (map (fun e => Some (D e)) (n_legs nd))).
    { simpl. rewrite Sh. f_equal. apply map_ext_in. auto. }
    pose proof (@add_node_dims _ _ D x (n_legs nd) t false m Nx Nl Dm Shp) as A.
    destruct (put_dims_spec (n_legs nd) Dm) as (P1 & P2 & P3 & P4).
    set (m1 := plus_node' (with_edges m (put_dims D (edges m) (n_legs nd))) x (n_legs nd) true t false) in *.
    assert (W1 : wf m1).
    { eapply add_node_wf; [exact A| |apply (ss_wf SS)]. simpl; auto. }
    assert (T1 : forall e, touched n (ys ++ [x]) e <-> touched n ys e \/ In e (n_legs nd)).
    { intros e. rewrite touched_app. unfold touched at 2. split; intros [H|H]; auto.
      - destruct H as (y & nd' & [<-|[]] & G' & J). rewrite G in G'. injection G' as <-. auto.
      - right. exists x, nd. simpl. auto. }
    assert (SS1 : sub_state n os (ys ++ [x]) m1).
    { constructor; auto.
      - unfold m1. simpl. rewrite (ss_nodes SS). unfold picked. rewrite map_app, concat_app. simpl. rewrite G. simpl.
        rewrite Et. reflexivity.
      - unfold m1. simpl. rewrite app_nil_r. apply SS.
      - intros e. unfold m1. simpl. rewrite P2, (ss_keys SS), T1. tauto.
      - intros e H. unfold m1. simpl. rewrite P4. destruct (mem_spec e (n_legs nd)) as [J|J].
        + rewrite (HD e J). f_equal. f_equal. destruct (touched_dec ys e W) as [Hy|Hy].
          * rewrite (ss_hit SS Hy). auto.
          * destruct (get e (edges m)) as [ed|] eqn:Ge; auto.
            assert (In e os). { pose proof (get_Some_key _ _ Ge) as K. apply (ss_keys SS) in K. tauto. }
            rewrite (ss_miss SS Hy) in Ge by auto. injection Ge as <-. auto.
        + apply T1 in H as [H|H]; [|tauto]. apply (ss_hit SS H).
      - intros e H J. unfold m1. simpl. rewrite P4. rewrite T1 in H.
        destruct (mem_spec e (n_legs nd)) as [Q|Q]; [tauto|]. apply (ss_miss SS); tauto. }
    destruct (IH (ys ++ [x]) m1 SS1) as (m' & F & SS').
    - rewrite <- app_assoc. exact ND.
    - rewrite <- app_assoc. exact I.
    - exists m'. split; [|rewrite <- app_assoc in SS'; exact SS'].
      unfold mbind at 1. unfold sub_node at 1. rewrite G, Et. unfold mbind at 1. rewrite A. exact F.
  Qed.

  (** the sub-network has the chosen nodes and their edges as the whole network has them *)
  Record sub_of n (xs os : list name) m : Prop := {
    so_inv : inv m;
    so_nodes : nodes m = picked n xs;
    so_opens : opens m = os;
    so_keys : forall e, In e (keys (edges m)) <-> touched n xs e;
    so_get : forall e, touched n xs e -> get e (edges m) = get e (edges n)
  }.
  Lemma sub_edges_ok n : forall es m, incl es (keys (edges n)) -> incl es (keys (edges m)) -> exists E,
    foreach (sub_edge n) es m = (with_edges m E, Ok tt) /\ keys E = keys (edges m) /\
    forall e, get e E = if mem e es then get e (edges n) else get e (edges m).
  Proof.
    induction es as [|a es IH]; intros m I1 I2; simpl foreach.
    - exists (edges m). rewrite with_edges_same. auto.
    - destruct (key_get _ _ (I1 a (or_introl eq_refl))) as [ed G].
      assert (Ha : has a (edges m) = true) by (apply has_In, I2; simpl; auto).
      destruct (key_get _ _ (I2 a (or_introl eq_refl))) as [ed' G'].
      assert (A : sub_edge n a m = (with_edges m (set a ed (edges m)), Ok tt)).
      { unfold sub_edge. rewrite G. unfold mbind, getst. rewrite Ha. reflexivity. }
      destruct (IH (with_edges m (set a ed (edges m)))) as (E & B & C & F).
      + intros e Ie; apply I1; simpl; auto.
      + simpl. erewrite set_keys_same by eauto. intros e Ie; apply I2; simpl; auto.
      + exists E. split; [unfold mbind; rewrite A; exact B|]. split.
        * rewrite C. simpl. erewrite set_keys_same by eauto. auto.
        * intros e. rewrite F. simpl edges. rewrite get_set. change (mem e (a :: es)) with (eqb e a || mem e es).
          destruct (eqb_spec e a) as [->|N]; simpl; auto. rewrite G. destruct (mem a es); auto.
  Qed.

  Lemma sub_net_ok n xs es os : inv n -> sized n -> NoDup xs -> incl xs (keys (nodes n)) ->
    (forall e, In e es -> touched n xs e) -> (forall e, In e os -> touched n xs e) ->
    (forall e, touched n xs e -> ~ In e es -> is_fixed n e = false) ->
    exists m, sub_net n xs es os = (m, Ok tt) /\ sub_of n xs os m.
  Proof.
    intros I Sz ND Ix He Ho Hf. destruct I as [W NNn].
    assert (Tk : forall e, touched n xs e -> In e (keys (edges n))).
    { intros e (x & nd & _ & G & J). eapply (wf_legs W); eauto. }
    destruct (@new_tn_exact os) as (E0 & A0 & B0 & C0).
    { intros Q. apply NNn, Tk, Ho; auto. }
    set (m0 := TN [] E0 [] os 0 : net) in *.
    assert (Hk : forall e, In e (keys E0) <-> In e os).
    { intros e. destruct (get e E0) eqn:G.
      - pose proof (get_Some_key _ _ G). rewrite C0 in G. destruct (mem_spec e os); [tauto|discriminate].
      - pose proof (proj1 (get_None _ _) G). rewrite C0 in G. destruct (mem_spec e os); [discriminate|tauto]. }
    assert (SS0 : sub_state n os [] m0).
    { assert (NT : forall e, ~ touched n [] e) by (intros e (x & nd & [] & _)).
      constructor; simpl; auto.
      - constructor; simpl; try constructor; try tauto.
        + intros ? ? ? Q; discriminate.
        + intros (nd & Q & _); discriminate.
        + intros e Ie; apply Hk; auto.
        + intros e ed fx Q F. rewrite C0 in Q. destruct (mem e os); [|discriminate]. injection Q as <-. discriminate.
      - intros e. rewrite Hk. split; auto. intros [Q|Q]; auto. destruct (NT _ Q).
      - intros e Q. destruct (NT _ Q).
      - intros e _ Q. rewrite C0, (proj2 (mem_In _ _) Q). auto. }
    destruct (sub_nodes_ok (conj W NNn) Sz xs SS0) as (m1 & A1 & SS1); auto. simpl in SS1.
    destruct (@sub_edges_ok n es m1) as (E & A2 & B2 & C2).
    { intros e Ie. auto. }
    { intros e Ie. apply (ss_keys SS1). auto. }
    exists (with_edges m1 E). split.
    { unfold sub_net. rewrite A0. unfold mbind. rewrite A1. exact A2. }
    assert (Hget : forall e, touched n xs e -> get e E = get e (edges n)).
    { intros e Te. rewrite C2. destruct (mem_spec e es) as [Q|Q]; auto. rewrite (ss_hit SS1 Te).
      specialize (Hf e Te Q). unfold is_fixed, edim in *. destruct (key_get _ _ (Tk _ Te)) as [ed G]. rewrite G in *.
      destruct ed as [d [f|]]; [discriminate|]. auto. }
    assert (Hks : forall e, In e (keys E) <-> touched n xs e).
    { intros e. rewrite B2, (ss_keys SS1). split; [intros [Q|Q]; auto|auto]. }
    constructor; auto; try apply SS1.
    split.
    - pose proof (ss_wf SS1) as W1. constructor; simpl; try apply W1.
      + rewrite B2. apply W1.
      + rewrite B2. apply W1.
      + rewrite B2. apply W1.
      + intros e ed fx Ge F. assert (Te : touched n xs e) by (apply Hks; eapply get_Some_key; eauto).
        rewrite Hget in Ge by auto. eapply (wf_fix W); eauto.
    - simpl. intros Q. apply Hks, Tk in Q. auto.
  Qed.
End Sub.
