(** The networks that are built node by node without data, and the edits of lightcone on them. *)
From Coq Require Import Reals.
From Verif Require Import Base Scalar NetSpec Sums NetAlg ModelArray ModelTN TNInv TNOps TNSpec TNMerge TNDelta TNValue
  TNValue2 TNExact ModelVal OpsProofs.
Set Implicit Arguments.
Open Scope nat_scope.

Section Blank.
  Context {T : Type} `{PT : Payload T}.
  Notation net := (tn T).
  Implicit Types (n : net) (x e : name) (L : list (name * list name)).

  Definition legs_list n : list (name * list name) := map (fun q => (fst q, n_legs (snd q))) (nodes n).

  (** the nodes with their legs are [L], every edge is a leg, is closed and has the dimension [d] *)
  Record blank n L (d : option nat) : Prop := {
    bk_nodes : legs_list n = L;
    bk_edges : forall e, In e (keys (edges n)) <-> exists x ls, In (x, ls) L /\ In e ls;
    bk_ed : forall e ed, get e (edges n) = Some ed -> ed = Edge d None;
    bk_opens : opens n = [];
    bk_inv : inv n
  }.

  Definition add_legs (d : option nat) (E : list (name * edge)) (legs : list name) : list (name * edge) :=
    fold_left (fun E e => if has e E then E else E ++ [(e, Edge None None)]) legs E.

  Lemma add_legs_loop : forall legs n k, ~ In NN legs ->
    foreach (add_leg None) (combine (seq k (length legs)) legs) n = (with_edges n (add_legs None (edges n) legs), Ok tt).
  Proof.
    induction legs as [|e r IH]; intros n k N; [destruct n; reflexivity|].
    cbn [length seq combine foreach add_leg snd]. simpl in N.
    assert (Q : (let! _ := add_edge e None in ret tt) n =
                (with_edges n (if has e (edges n) then edges n else edges n ++ [(e, Edge None None)]), Ok tt)).
    { destruct (has e (edges n)) eqn:Hs.
      - rewrite (@mbind_eq _ _ _ _ _ n n e); [rewrite with_edges_same; reflexivity|].
        apply add_edge_same; auto. apply has_In; auto.
      - rewrite (@mbind_eq _ _ _ _ _ n (with_edges n (edges n ++ [(e, Edge None None)])) e); [reflexivity|].
        apply add_edge_fresh; auto. intros I. apply has_In in I. congruence. }
    rewrite (@mbind_eq _ _ _ _ _ _ _ _ Q). rewrite IH by tauto. destruct n; reflexivity.
  Qed.
  Lemma add_legs_keys d legs : forall E e, In e (keys (add_legs d E legs)) <-> In e (keys E) \/ In e legs.
  Proof.
    induction legs as [|a r IH]; intros E e; cbn [add_legs fold_left].
    - simpl. tauto.
    - fold (add_legs d (if has a E then E else E ++ [(a, Edge None None)]) r). rewrite IH.
      destruct (has a E) eqn:Hs.
      + apply has_In in Hs. cbn [In]. split; [tauto|]. intros [?|[<-|?]]; auto.
      + rewrite keys_app, in_app_iff. cbn [keys map fst In]. tauto.
  Qed.
  Lemma add_legs_get d legs : forall E, (forall e ed, get e E = Some ed -> ed = Edge d None) ->
    (d = None \/ incl legs (keys E)) -> forall e ed, get e (add_legs d E legs) = Some ed -> ed = Edge d None.
  Proof.
    induction legs as [|a r IH]; intros E H D e ed; cbn [add_legs fold_left]; [apply H|].
    fold (add_legs d (if has a E then E else E ++ [(a, Edge None None)]) r). apply IH.
    - destruct (has a E) eqn:Hs; auto. intros b eb G. rewrite get_app in G. destruct (get b E) eqn:Gb.
      + inversion G; subst. eauto.
      + cbn [get] in G. destruct (eqb_spec b a) as [->|]; [|discriminate]. inversion G.
        destruct D as [->|D]; auto. exfalso. assert (In a (keys E)) by (apply D; simpl; auto).
        apply has_In in H0. congruence.
    - destruct D as [->|D]; auto. right. intros b Ib. specialize (D b (or_intror Ib)).
      destruct (has a E); auto. rewrite keys_app. apply in_app_iff. auto.
  Qed.

  Lemma add_blank x legs t n d L :
    pshape t = None -> blank n L d -> ~ In x (map fst L) -> ~ In NN legs -> (d = None \/ forall e, In e legs -> exists y ls, In (y, ls) L /\ In e ls) ->
    exists n', add_node x (Some legs) t false n = (n', Ok x) /\ blank n' (L ++ [(x, legs)]) d.
  Proof.
    intros Sh [B1 B2 B3 B4 B5] Nx NNl D.
    assert (Kx : keys (nodes n) = map fst L) by (rewrite <- B1; unfold legs_list; rewrite map_map; reflexivity).
    rewrite <- Kx in Nx.
    assert (Hx : has x (nodes n) = false).
    { destruct (has x (nodes n)) eqn:Q; auto. apply has_In in Q; tauto. }
    set (E := add_legs d (edges n) legs).
    assert (IE : incl legs (keys E)) by (intros e I; apply add_legs_keys; auto).
    set (n' := TN (nodes n ++ [(x, Node legs true (Some t))]) E (add_adjs (adj n) (map (fun e => (x, e)) legs)) (opens n) (idc n)).
    assert (Q : add_node x (Some legs) t false n = (n', Ok x)).
    { unfold add_node. rewrite (@mbind_eq _ _ _ getst _ n n n eq_refl), Hx.
      rewrite (@mbind_eq _ _ _ _ _ n n (legs, true) eq_refl).
      set (n0 := with_nodes n (nodes n ++ [(x, Node legs true None)])).
      rewrite (@mbind_eq _ _ _ _ _ n n0 tt) by reflexivity.
      rewrite Sh. set (nE := with_edges n0 E).
      rewrite (@mbind_eq _ _ _ _ _ n0 nE tt) by (unfold enum; rewrite add_legs_loop by auto; reflexivity).
      set (n1 := with_adj nE (add_adjs (adj n) (map (fun e => (x, e)) legs))).
      rewrite (@mbind_eq _ _ _ _ _ nE n1 tt).
      2:{ unfold modify. rewrite graph_connect_known by exact IE. reflexivity. }
      rewrite (@mbind_eq _ _ _ _ _ n1 n' tt); [reflexivity|].
      unfold update_node. rewrite (@mbind_eq _ _ _ getst _ n1 n1 n1 eq_refl).
      assert (G : get x (nodes n1) = Some (Node legs true None)).
      { unfold n1, nE, n0. simpl. rewrite get_snoc, eqb_refl; auto. }
      rewrite G. cbn [n_legs n_mut]. rewrite (@mbind_eq _ _ _ _ _ n1 n' tt).
      2:{ unfold modify. unfold n1, nE, n0, n'. cbn [nodes with_adj with_nodes with_edges edges adj opens idc].
          rewrite set_snoc by auto. reflexivity. }
      rewrite Sh. apply update_dimension_same. intros e o I.
      assert (X : forall l acc e o, In (e, o) (dict_of (map (fun e => (e, None)) l) acc) ->
                    (forall e o, In (e, o) acc -> In e legs /\ o = None) -> incl l legs -> In e legs /\ o = (None : option nat)).
      { clear. induction l as [|a r IH]; intros acc e o I Ha Il; cbn [map dict_of] in I; [auto|].
        apply (IH _ _ _ I); [|intros z Iz; apply Il; simpl; auto].
        intros b ob Ib. clear - Ib Ha Il. induction acc as [|[k v] q IHq]; cbn [set] in Ib.
        - destruct Ib as [Ib|[]]. inversion Ib; subst. split; auto. apply Il. simpl; auto.
        - destruct (eqb_spec a k) as [->|Nk].
          + destruct Ib as [Ib|Ib]; [inversion Ib; subst|].
            * split; auto. apply Il; simpl; auto.
            * apply Ha. simpl; auto.
          + destruct Ib as [Ib|Ib].
            * apply Ha. simpl; auto.
            * apply IHq; auto. intros e o Io. apply Ha. simpl; auto. }
      destruct (X _ _ _ _ I) as [Ie ->]; [simpl; tauto|apply incl_refl|]. split; auto. }
    exists n'. split; auto. constructor.
    - unfold legs_list, n'. cbn [nodes]. rewrite map_app. cbn [map fst snd n_legs]. f_equal. exact B1.
    - intros e. unfold n'. cbn [edges]. unfold E. rewrite add_legs_keys, B2. split.
      + intros [(y & ls & I & Ie)|I].
        * exists y, ls. split; auto. apply in_app_iff; auto.
        * exists x, legs. split; auto. apply in_app_iff. simpl; auto.
      + intros (y & ls & I & Ie). apply in_app_iff in I as [I|[I|[]]]; [left; eauto|].
        inversion I; subst. auto.
    - intros e ed. unfold n'. cbn [edges]. apply add_legs_get; auto. destruct D as [->|D]; auto.
      right. intros e' Ie. apply B2. auto.
    - exact B4.
    - eapply add_node_inv; eauto.
  Qed.

  (** ** merging two edges of unknown dimension into a new one *)
  Lemma legs_list_ext (l l' : list (name * node T)) (f : list name -> list name) :
    keys l' = keys l -> NoDup (keys l) ->
    (forall x, match get x l, get x l' with
               | Some a, Some a' => n_legs a' = f (n_legs a)
               | None, None => True
               | _, _ => False
               end) ->
    map (fun q => (fst q, n_legs (snd q))) l' = map (fun q => (fst q, f (n_legs (snd q)))) l.
  Proof.
    revert l'; induction l as [|[x v] r IH]; intros [|[x' v'] r'] K ND H; simpl in K; try discriminate; auto.
    inversion K; subst x'. inversion ND as [|? ? Nx ND']; subst. cbn [map fst snd].
    pose proof (H x) as Hx. cbn [get] in Hx. rewrite eqb_refl in Hx. rewrite Hx. f_equal. apply IH; auto.
    intros y. pose proof (H y) as Hy. cbn [get] in Hy. destruct (eqb_spec y x) as [Eq|]; auto. rewrite Eq.
    assert (N' : ~ In x (keys r')) by (rewrite H2; auto).
    destruct (get x r) eqn:G1; [apply get_Some_key in G1; tauto|].
    destruct (get x r') eqn:G2; [apply get_Some_key in G2; tauto|auto].
  Qed.

  Lemma merge1_blank m e n : e <> m -> In e (keys (edges n)) -> (forall e ed, get e (edges n) = Some ed -> ed = Edge None None) ->
    exists n', merge1 m e n = (n', Ok tt) /\ edges n' = del e (edges n) /\ opens n' = opens n.
  Proof.
    intros Ne I H. unfold merge1. rewrite (@mbind_eq _ _ _ getst _ n n n eq_refl).
    destruct (key_get _ _ I) as [ed G]. rewrite G. rewrite (H _ _ G). cbn [e_fix].
    rewrite (@mbind_eq _ _ _ _ _ n n tt eq_refl).
    set (n1 := with_adj n (add_adjs (adj n) (map (fun x => (x, m)) (adj_nodes n e)))).
    rewrite (@mbind_eq _ _ _ _ _ n n1 tt) by reflexivity.
    assert (Q : eqb e m = false) by (apply eqb_neq; auto). rewrite Q.
    eexists. split; [reflexivity|]. split; reflexivity.
  Qed.

  Lemma merge_blank a b m n L :
    blank n L None -> a <> b -> In a (keys (edges n)) -> In b (keys (edges n)) -> ~ In m (keys (edges n)) -> m <> NN ->
    exists n', merge_edges [a; b] m n = (n', Ok m) /\
      blank n' (map (fun q => (fst q, map (merge_label [a; b] m) (snd q))) L) None.
  Proof.
    intros [B1 B2 B3 B4 B5] Nab Ia Ib Nm NNm.
    assert (Am : a <> m) by (intros ->; tauto). assert (Bm : b <> m) by (intros ->; tauto).
    assert (X : exists n', merge_edges [a; b] m n = (n', Ok m) /\
                  (forall e ed, get e (edges n') = Some ed -> ed = Edge None None)).
    { unfold merge_edges.
      destruct (key_get _ _ Ia) as [ea Ga]. destruct (key_get _ _ Ib) as [eb Gb].
      assert (Ld : last_dim [a; b] None n = (n, Ok None)).
      { cbn [last_dim]. cbv [mbind getst]. rewrite Ga, Gb. rewrite (B3 _ _ Gb). reflexivity. }
      rewrite (@mbind_eq _ _ _ _ _ _ _ _ Ld).
      assert (Hm : has m (edges n) = false).
      { destruct (has m (edges n)) eqn:Q; auto. apply has_In in Q; tauto. }
      set (n1 := with_edges n (edges n ++ [(m, Edge None None)])).
      assert (Tg : (match m with NN => lift (sorted_last [a; b]) | _ => let! n := getst in
                     if has m (edges n) then ret m else add_edge m None end) n = (n1, Ok m)).
      { destruct m; [congruence|..]; (rewrite (@mbind_eq _ _ _ getst _ n n n eq_refl), Hm; apply add_edge_fresh; auto). }
      rewrite (@mbind_eq _ _ _ _ _ _ _ _ Tg).
      assert (H1 : forall e ed, get e (edges n1) = Some ed -> ed = Edge None None).
      { intros e ed G. unfold n1 in G. cbn [edges with_edges] in G. rewrite get_app in G.
        destruct (get e (edges n)) eqn:Ge; [inversion G; subst; eauto|].
        cbn [get] in G. destruct (eqb e m); inversion G; auto. }
      assert (K1 : forall e, In e (keys (edges n1)) <-> In e (keys (edges n)) \/ e = m).
      { intros e. unfold n1. cbn [edges with_edges]. rewrite keys_app, in_app_iff. cbn [keys map fst In]. intuition. }
      assert (Ud : update_dimension [(m, None)] n1 = (n1, Ok tt)).
      { apply update_dimension_same. intros e o [Q|[]]. inversion Q; subst. split; auto. apply K1; auto. }
      rewrite (@mbind_eq _ _ _ _ _ _ _ _ Ud). rewrite (@mbind_eq _ _ _ getst _ n1 n1 n1 eq_refl).
      cbn [foreach].
      destruct (@merge1_blank m a n1 Am) as (n2 & E2 & Ed2 & Op2); auto; [apply K1; auto|].
      assert (H2 : forall e ed, get e (edges n2) = Some ed -> ed = Edge None None).
      { rewrite Ed2. intros e ed G. rewrite get_del in G. destruct (eqb e a); [discriminate|eauto]. }
      destruct (@merge1_blank m b n2 Bm) as (n3 & E3 & Ed3 & Op3); auto.
      { rewrite Ed2. destruct (key_get b (edges n1)) as [z Gz]; [apply K1; auto|].
        apply get_Some_key with z. rewrite get_del. destruct (eqb_spec b a); congruence. }
      assert (Fe : (merge1 m a ;; (merge1 m b ;; ret tt)) n1 = (n3, Ok tt)).
      { rewrite (@mbind_eq _ _ _ _ _ _ _ _ E2). rewrite (@mbind_eq _ _ _ _ _ _ _ _ E3). reflexivity. }
      rewrite (@mbind_eq _ _ _ _ _ _ _ _ Fe).
      set (Lt := dedup (concat (map (adj_nodes n1) [a; b]))).
      destruct (fold_map_legs (map (merge_label [a; b] m)) n3 (dedup_NoDup (concat (map (adj_nodes n1) [a; b]))))
        as (E1 & _ & E5 & _).
      fold (merge_legs (T := T) [a; b] m) in *. fold Lt in E1, E5.
      set (n4 := fold_left (merge_legs [a; b] m) Lt n3) in *.
      rewrite (@mbind_eq _ _ _ _ _ n3 n4 tt) by reflexivity.
      assert (O4 : opens n4 = []) by (rewrite E5, Op3, Op2; exact B4).
      set (n5 := with_opens n4 (map (merge_label [a; b] m) (opens n4))).
      rewrite (@mbind_eq _ _ _ _ _ n4 n5 tt) by reflexivity.
      rewrite (@mbind_eq _ _ _ getst _ n5 n5 n5 eq_refl).
      assert (O5 : opens n5 = []) by (unfold n5; cbn [opens with_opens]; rewrite O4; reflexivity).
      rewrite O5. cbn [forallb].
      exists n5. split; [reflexivity|].
      unfold n5. cbn [edges with_opens]. rewrite E1, Ed3. intros e ed G. rewrite get_del in G.
      destruct (eqb e b); [discriminate|eauto]. }
    destruct X as (n' & E & H'). exists n'. split; auto.
    destruct (merge_edges_spec [a; b] m (proj1 B5) E) as (M & _).
    constructor; auto.
    - rewrite <- B1. unfold legs_list. rewrite map_map. cbn [fst snd].
      apply (@legs_list_ext (nodes n) (nodes n') (map (merge_label [a; b] m)) (mg_node_keys M)); [apply (wf_nodes (proj1 B5))|].
      intros x. pose proof (mg_nodes M x) as Hx. destruct (get x (nodes n)), (get x (nodes n')); tauto.
    - intros e. rewrite (mg_keys M). split.
      + intros [->|[I Ne]].
        * apply B2 in Ia as (x & ls & I & Ie). exists x, (map (merge_label [a; b] m) ls). split.
          -- apply (in_map (fun q => (fst q, map (merge_label [a; b] m) (snd q)))) in I. exact I.
          -- apply in_map_iff. exists a. split; auto. unfold merge_label, mem. cbn [existsb]. rewrite eqb_refl. auto.
        * apply B2 in I as (x & ls & I & Ie). exists x, (map (merge_label [a; b] m) ls). split.
          -- apply (in_map (fun q => (fst q, map (merge_label [a; b] m) (snd q)))) in I. exact I.
          -- apply in_map_iff. exists e. split; auto. unfold merge_label. apply mem_false in Ne. rewrite Ne. auto.
      + intros (x & ls & I & Ie). apply in_map_iff in I as ([y ks] & Q & I). cbn [fst snd] in Q. inversion Q; subst.
        apply in_map_iff in Ie as (e' & <- & Ie). unfold merge_label. destruct (mem_spec e' [a; b]) as [M'|M']; auto.
        right. split; auto. apply B2. eauto.
    - rewrite (mg_opens M), B4. reflexivity.
    - split; [apply (merged_wf M), (proj1 B5)|]. intros I. apply (mg_keys M) in I as [I|[I _]]; [auto|].
      apply (proj2 B5 I).
  Qed.

  (** ** giving all edges a dimension *)
  Lemma set_dims D : forall (es : list name) n, NoDup es -> wf n -> incl es (keys (edges n)) ->
    (forall e, In e es -> get e (edges n) = Some (Edge None None)) ->
    exists n', update_dimension (map (fun e => (e, Some D)) es) n = (n', Ok tt) /\ nodes n' = nodes n /\ adj n' = adj n /\
      opens n' = opens n /\ keys (edges n') = keys (edges n) /\ 
      (forall e, get e (edges n') = if mem e es then Some (Edge (Some D) None) else get e (edges n)).
  Proof.
    induction es as [|e r IH]; intros n ND W I H; [exists n; repeat split; auto|].
    inversion ND as [|? ? Ne ND']; subst. cbn [map].
    assert (G : get e (edges n) = Some (Edge None None)) by (apply H; simpl; auto).
    set (n1 := with_edges n (set e (Edge (Some D) None) (edges n))).
    assert (E1 : update_dim1 e (Some D) n = (n1, Ok tt)).
    { unfold update_dim1. rewrite (@mbind_eq _ _ _ getst _ n n n eq_refl). rewrite G. reflexivity. }
    assert (K1 : keys (edges n1) = keys (edges n)) by (unfold n1; cbn [edges with_edges]; eapply set_keys_same; eauto).
    assert (W1 : wf n1).
    { assert (Gr := @update_dim1_grows T e (Some D) n). rewrite E1 in Gr. eapply grows_wf; eauto. }
    assert (G1 : forall a, get a (edges n1) = if eqb a e then Some (Edge (Some D) None) else get a (edges n)).
    { intros a. unfold n1. cbn [edges with_edges]. rewrite get_set. reflexivity. }
    destruct (IH n1) as (n' & E & A1 & A2 & A3 & A4 & A5); auto.
    - rewrite K1. intros a Ia; apply I; simpl; auto.
    - intros a Ia. rewrite G1. destruct (eqb_spec a e) as [->|]; [tauto|]. apply H; simpl; auto.
    - exists n'. split; [|split; [exact A1|split; [exact A2|split; [exact A3|split; [congruence|]]]]].
      + unfold update_dimension. cbn [foreach fst snd]. rewrite (@mbind_eq _ _ _ _ _ _ _ _ E1). exact E.
      + intros a. rewrite A5, G1. unfold mem. cbn [existsb]. fold (mem a r).
        destruct (eqb_spec a e) as [->|]; cbn [orb]; auto. destruct (mem e r); auto.
  Qed.
  Lemma dims_blank n L D : blank n L None ->
    exists n', update_dimension (map (fun e => (e, Some D)) (keys (edges n))) n = (n', Ok tt) /\ blank n' L (Some D).
  Proof.
    intros [B1 B2 B3 B4 B5].
    destruct (@set_dims D (keys (edges n)) n) as (n' & E & A1 & A2 & A3 & A4 & A5).
    - apply (wf_edges (proj1 B5)).
    - apply B5.
    - apply incl_refl.
    - intros e I. destruct (key_get _ _ I) as [ed G]. rewrite G. f_equal. eauto.
    - exists n'. split; auto. constructor.
      + unfold legs_list. rewrite A1. exact B1.
      + rewrite A4. exact B2.
      + intros e ed G. rewrite A5 in G. destruct (mem_spec e (keys (edges n))) as [I|I]; [inversion G; auto|].
        apply get_Some_key in G. tauto.
      + congruence.
      + split.
        * assert (Gr := @update_dimension_grows T (map (fun e => (e, Some D)) (keys (edges n))) n). rewrite E in Gr.
          eapply grows_wf; eauto. apply B5.
        * rewrite A4. apply B5.
  Qed.
End Blank.
