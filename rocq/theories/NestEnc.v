(** Encapsulation preserves the value. *)
From Verif Require Import Base Scalar NetSpec Sums NetAlg ModelArray ModelTN TNInv TNOps TNSpec TNMerge TNDelta TNValue TNExact ModelVal OpsProofs ModelNest NestSpec NestSub.
Set Implicit Arguments.

Lemma perm_get {B} (l l' : list (name * B)) k : NoDup (keys l) -> Permutation l l' -> get k l = get k l'.
Proof.
  intros ND P. assert (ND' : NoDup (keys l')) by (eapply Permutation_NoDup; [apply (Permutation_map fst P)|auto]).
  destruct (get k l) as [v|] eqn:G.
  - symmetry. apply In_get; auto. eapply Permutation_in; [exact P|]. apply get_In; auto.
  - destruct (get k l') as [v|] eqn:G'; auto. apply get_In, (Permutation_in _ (Permutation_sym P)), In_get in G'; auto. congruence.
Qed.

Section Nested.
  Context {S : scalar}.
  Add Ring KringNE : (kring S).
  Notation tval := (tval S).
  Notation net := (tn tval).
  Notation pv := (@tval_value S).
  Notation value := (tn_value pv).
  Implicit Types (n m : net) (x e : name).

  Lemma mem_false_iff (a : name) l : mem a l = false <-> ~ In a l.
  Proof. destruct (mem_spec a l); split; intros; congruence || tauto. Qed.

  Definition content (nd : node tval) := (n_legs nd, n_val nd).
  Definition hidden (es : list name) (l : list (name * edge)) := filter (fun p => negb (mem (fst p) es)) l.
  Definition removed (xs : list name) (l : list (name * node tval)) := filter (fun p => negb (mem (fst p) xs)) l.

  (** [n'] is [n] with the nodes [xs] and the edges [es] moved into the network [m] held by node [x] *)
  Record nested n n' (xs es : list name) x m : Prop := {
    ne_es : forall e, In e es -> In e (keys (edges n)) /\ ~ In e (opens n);
    ne_inner : forall e y nd, In e es -> get y (nodes n) = Some nd -> In e (n_legs nd) -> In y xs;
    ne_wf : wf m;
    ne_content : forall y, option_map content (get y (nodes m)) =
                           if mem y xs then option_map content (get y (nodes n)) else None;
    ne_keys : forall e, In e (keys (edges m)) <-> In e es \/ In e (opens m);
    ne_get : forall e, In e (keys (edges m)) -> get e (edges m) = get e (edges n);
    ne_apart : forall e, In e (opens m) -> ~ In e es /\ In e (keys (edges n));
    ne_nodes : Permutation (nodes n') ((x, Node (opens m) true (Some (VNet m))) :: removed xs (nodes n));
    ne_edges : Permutation (edges n') (hidden es (edges n));
    ne_opens : opens n' = opens n
  }.

  Lemma filter_perm_split {X} (f : X -> bool) (l : list X) : Permutation l (filter f l ++ filter (fun a => negb (f a)) l).
  Proof.
    induction l as [|a l IH]; simpl; auto. destruct (f a); simpl; [constructor; auto|].
    rewrite IH at 1. apply Permutation_cons_app. auto.
  Qed.
  Lemma get_filter_key {B} (f : name -> bool) (l : list (name * B)) k :
    get k (filter (fun p => f (fst p)) l) = if f k then get k l else None.
  Proof.
    induction l as [|[a b] l IH]; simpl; [destruct (f k); auto|].
    destruct (eqb_spec k a) as [->|N].
    - destruct (f a) eqn:Fa; simpl; [rewrite eqb_refl; auto|]. rewrite IH; auto.
    - destruct (f a); simpl; auto. rewrite (proj2 (eqb_neq _ _) N). auto.
  Qed.
  Lemma keys_filter_key {B} (f : name -> bool) (l : list (name * B)) :
    keys (filter (fun p => f (fst p)) l) = filter f (keys l).
  Proof. induction l as [|[a b] l IH]; simpl; auto. destruct (f a); simpl; rewrite ?IH; auto. Qed.

  Lemma get_removed (xs : list name) (l : list (name * node tval)) k : get k (removed xs l) = if mem k xs then None else get k l.
  Proof. unfold removed. rewrite (get_filter_key (fun k => negb (mem k xs))). destruct (mem k xs); auto. Qed.
  Lemma get_hidden (es : list name) l k : get k (hidden es l) = if mem k es then None else get k l.
  Proof. unfold hidden. rewrite (get_filter_key (fun k => negb (mem k es))). destruct (mem k es); auto. Qed.
  Lemma get_removed_iff (xs : list name) (l : list (name * node tval)) k nd :
    get k (removed xs l) = Some nd <-> get k l = Some nd /\ ~ In k xs.
  Proof. rewrite get_removed. destruct (mem_spec k xs); split; intuition congruence. Qed.
  Lemma keys_removed (xs : list name) (l : list (name * node tval)) : keys (removed xs l) = filter (fun k => negb (mem k xs)) (keys l).
  Proof. apply (keys_filter_key (fun k => negb (mem k xs))). Qed.
  Lemma keys_hidden (es : list name) l : keys (hidden es l) = filter (fun k => negb (mem k es)) (keys l).
  Proof. apply (keys_filter_key (fun k => negb (mem k es))). Qed.

  Lemma content_terms (l l' : list (name * node tval)) : NoDup (keys l) -> NoDup (keys l') ->
    (forall y, option_map content (get y l) = option_map content (get y l')) ->
    Permutation (map (node_term pv) l) (map (node_term pv) l').
  Proof.
    intros N1 N2 G.
    set (g := fun p : name * (list name * option tval) =>
                Term (fst (snd p)) (match snd (snd p) with Some t => pv t | None => fun _ => 0%K end)).
    assert (E : forall l : list (name * node tval), map (node_term pv) l = map g (map (fun p => (fst p, content (snd p))) l)).
    { intros q. rewrite map_map. apply map_ext. intros [a b]; auto. }
    rewrite !E. apply Permutation_map, assoc_perm; rewrite ?keys_map; auto.
    intros y. rewrite !get_map. apply G.
  Qed.

  Lemma eqb_map_incl (s s' : env (A := name)) (l l' : list name) : incl l l' -> incl l' l ->
    eqb (map s l) (map s' l) = eqb (map s l') (map s' l').
  Proof.
    intros I J.
    assert (H : forall l, eqb (map s l) (map s' l) = true <-> forall a, In a l -> s a = s' a).
    { clear. induction l as [|a l IH]; simpl; [split; auto; intros _ ? []|].
      change (eqb (s a :: map s l) (s' a :: map s' l)) with (eqb (s a) (s' a) && eqb (map s l) (map s' l)).
      rewrite andb_true_iff, IH, eqb_eq. split.
      - intros [A B] b [<-|Q]; auto.
      - intros A. split; auto. }
    destruct (eqb (map s l) (map s' l)) eqn:E1, (eqb (map s l') (map s' l')) eqn:E2; auto; exfalso.
    - assert (eqb (map s l') (map s' l') = true); [|congruence]. apply H. intros a Ia. apply (proj1 (H l) E1); auto.
    - assert (eqb (map s l) (map s' l) = true); [|congruence]. apply H. intros a Ia. apply (proj1 (H l') E2); auto.
  Qed.

  Lemma nested_value n n' xs es x m o : wf n -> fix_nodup n -> nested n n' xs es x m -> value n' o = value n o.
  Proof.
    intros W FN NE. destruct NE as [E1 E2 Wm E4 E5 E6 E7 E8 E9 E10].
    set (inn := filter (fun p => mem (fst p) xs) (nodes n)).
    set (dp := map dpair (filter (fun p => mem (fst p) es) (edges n))).
    set (dr := map dpair (hidden es (edges n))).
    set (os := opens m) in *.
    set (new := Term os (fun i => value m i) : term S).
    assert (Pd : Permutation (tn_dom n) (dp ++ dr)).
    { rewrite tn_dom_map. unfold dp, dr, hidden. rewrite <- map_app. apply Permutation_map.
      apply (filter_perm_split (fun p => mem (fst p) es)). }
    assert (Pt : Permutation (tn_terms pv n) (tn_terms pv m ++ map (node_term pv) (removed xs (nodes n)))).
    { unfold tn_terms. rewrite (filter_perm_split (fun p => mem (fst p) xs) (nodes n)) at 1. rewrite map_app.
      apply Permutation_app; [|reflexivity]. apply content_terms.
      - rewrite (keys_filter_key (fun k => mem k xs)). apply NoDup_filter, W.
      - apply Wm.
      - intros y. rewrite E4, (get_filter_key (fun k => mem k xs)). destruct (mem y xs); auto. }
    assert (Pn : Permutation (tn_terms pv n') (new :: map (node_term pv) (removed xs (nodes n)))).
    { unfold tn_terms. rewrite E8. simpl. reflexivity. }
    unfold tn_value. rewrite E10. symmetry.
    rewrite (net_value_terms_perm _ _ _ Pt), (net_value_terms_perm _ _ _ Pn).
    assert (Pe : Permutation (tn_dom n') dr) by (rewrite tn_dom_map; apply Permutation_map, E9).
    assert (NDn : NoDup (keys (tn_dom n))) by (rewrite keys_tn_dom; apply W).
    assert (NDdr : NoDup (keys dr)).
    { unfold dr. rewrite keys_dpair. unfold hidden. rewrite (keys_filter_key (fun k => negb (mem k es))).
      apply NoDup_filter, W. }
    rewrite (@net_value_dom_perm _ _ _ (tn_dom n') dr); auto.
    2:{ eapply Permutation_NoDup; [|exact NDdr]. symmetry. apply Permutation_map, Pe. }
    apply contract_group with (dp := dp); auto.
    - intros a Ia. assert (Ie : In a es).
      { unfold dp in Ia. rewrite keys_dpair, (keys_filter_key (fun k => mem k es)) in Ia.
        apply filter_In in Ia as [_ Q]. apply mem_In; auto. }
      split; [|apply E1; auto]. intros Il. apply labels_In in Il as (t & It & Il).
      apply in_map_iff in It as ([y nd] & <- & It). apply filter_In in It as [It Q]. simpl in Q.
      apply negb_true_iff, mem_false_iff in Q. apply Q. apply In_get in It; [|apply W]. eapply E2; eauto.
    - intros s Hs. unfold new, term_at. simpl entry. simpl legs.
      set (dk := map dpair (filter (fun p => negb (mem (fst p) es)) (edges m))).
      assert (Hkd : forall e, In e (keys dk) <-> In e os).
      { intros e. unfold dk. rewrite keys_dpair, (keys_filter_key (fun k => negb (mem k es))), filter_In.
        rewrite E5, negb_true_iff, mem_false_iff. split; [tauto|]. intros Q. split; auto. apply (E7 e Q). }
      assert (Gm : forall e ed, get e (edges m) = Some ed -> get e (edges n) = Some ed).
      { intros e ed G. rewrite <- E6; auto. eapply get_Some_key; eauto. }
      assert (Pm : Permutation (tn_dom m) (dk ++ dp)).
      { rewrite tn_dom_map, (filter_perm_split (fun p => mem (fst p) es) (edges m)), map_app, Permutation_app_comm.
        apply Permutation_app; [reflexivity|]. apply Permutation_map, assoc_perm.
        - rewrite (keys_filter_key (fun k => mem k es)). apply NoDup_filter, Wm.
        - rewrite (keys_filter_key (fun k => mem k es)). apply NoDup_filter, W.
        - intros k. rewrite !(get_filter_key (fun k => mem k es)). destruct (mem_spec k es) as [Q|Q]; auto.
          apply E6, E5; auto. }
      assert (NDm : NoDup (keys (tn_dom m))) by (rewrite keys_tn_dom; apply Wm).
      unfold tn_value. rewrite (net_value_dom_perm _ _ _ Pm NDm).
      transitivity (net_value (dk ++ dp) (tn_terms pv m) (keys dk) (map s (keys dk))).
      { unfold net_value. apply esum_ext_all. intros s'. f_equal. f_equal. apply eqb_map_incl; intros a Ia; apply Hkd; auto. }
      assert (Hin : forall a ws, In (a, ws) dk -> exists ed, get a (edges n) = Some ed /\ ws = edge_values ed /\ ~ In a es).
      { intros a ws I. apply in_map_iff in I as ([b ed] & Q & I). unfold dpair in Q; simpl in Q. injection Q as -> <-.
        apply filter_In in I as [I Q]. simpl in Q. apply negb_true_iff, mem_false_iff in Q.
        apply In_get in I; [|apply Wm]. exists ed; auto. }
      apply group_value.
      + eapply Permutation_NoDup; [|exact NDm]. apply Permutation_map, Pm.
      + intros a ws I. destruct (Hin _ _ I) as (ed & G & -> & _). eapply edge_values_nodup; eauto.
      + intros a Ia. eapply Permutation_in; [apply Permutation_map, Pm|]. fold (keys (tn_dom m)). rewrite keys_tn_dom.
        apply labels_In in Ia as (t & It & Ia). apply in_map_iff in It as ([y nd] & <- & It).
        apply In_get in It; [|apply Wm]. eapply (wf_legs Wm); eauto.
      + intros a ws I. destruct (Hin _ _ I) as (ed & G & -> & Na). apply Hs. unfold dr.
        apply in_map_iff. exists (a, ed). split; auto. apply filter_In. split; [apply get_In; auto|]. simpl.
        apply negb_true_iff, mem_false_iff; auto.
  Qed.
End Nested.

Section Enc.
  Context {S : scalar}.
  Notation tval := (tval S).
  Notation net := (tn tval).
  Notation pv := (@tval_value S).
  Notation value := (tn_value pv).
  Implicit Types (n m : net) (x e : name).
  Variable ord : list name -> list name.
  Variable Hord : forall l, Permutation (ord l) l.

  Lemma ord_In l (a : name) : In a (ord l) <-> In a l.
  Proof. split; apply Permutation_in; [|symmetry]; apply Hord. Qed.
  Lemma ord_NoDup l : NoDup l -> NoDup (ord l).
  Proof. apply Permutation_NoDup. symmetry. apply Hord. Qed.


  Lemma filter_filter {X} (f g : X -> bool) l : filter f (filter g l) = filter (fun a => g a && f a) l.
  Proof. induction l as [|a l IH]; simpl; auto. destruct (g a); simpl; [destruct (f a)|]; rewrite ?IH; auto. Qed.

  Definition without n (xs es : list name) : net :=
    TN (removed xs (nodes n)) (hidden es (edges n))
       (filter (fun p => negb (mem (fst p) xs) && negb (mem (snd p) es)) (adj n)) (opens n) (idc n).
  Lemma without_nil n : without n [] [] = n.
  Proof.
    assert (F : forall X (l : list X), filter (fun _ => true) l = l) by (induction l; simpl; f_equal; auto).
    destruct n. unfold without, removed, hidden. simpl. rewrite !F. auto.
  Qed.
  Lemma without_node n xs x : graph_del_node (without n xs []) x = without n (x :: xs) [].
  Proof.
    unfold graph_del_node, without, removed, hidden, del, with_adj, with_nodes; cbn [nodes edges adj opens idc]. f_equal.
    - rewrite filter_filter. apply filter_ext. intros [a b]; simpl. change (mem a (x :: xs)) with (eqb a x || mem a xs).
      rewrite (eqb_sym x a). destruct (eqb a x), (mem a xs); auto.
    - rewrite filter_filter. apply filter_ext. intros [a b]; simpl. change (mem a (x :: xs)) with (eqb a x || mem a xs).
      rewrite (eqb_sym x a). destruct (eqb a x), (mem a xs); auto.
  Qed.
  Lemma without_edge n xs es e : graph_del_edge (without n xs es) e = without n xs (e :: es).
  Proof.
    unfold graph_del_edge, without, removed, hidden, del, with_adj, with_edges; cbn [nodes edges adj opens idc]. f_equal.
    - rewrite filter_filter. apply filter_ext. intros [a b]; simpl. change (mem a (e :: es)) with (eqb a e || mem a es).
      rewrite (eqb_sym e a). destruct (eqb a e), (mem a es); auto.
    - rewrite filter_filter. apply filter_ext. intros [a b]; simpl. change (mem b (e :: es)) with (eqb b e || mem b es).
      rewrite (eqb_sym e b). destruct (eqb b e), (mem b es), (mem a xs); auto.
  Qed.
  Lemma mem_equiv (l l' : list name) a : (forall b, In b l <-> In b l') -> mem a l = mem a l'.
  Proof. intros E. destruct (mem_spec a l), (mem_spec a l'); auto; exfalso; firstorder. Qed.
  Lemma without_equiv n xs xs' es es' : (forall b, In b xs <-> In b xs') -> (forall b, In b es <-> In b es') ->
    without n xs es = without n xs' es'.
  Proof.
    intros E1 E2. unfold without, removed, hidden. f_equal; apply filter_ext; intros [a b]; simpl;
      rewrite ?(@mem_equiv xs xs' a), ?(@mem_equiv es es' a), ?(@mem_equiv es es' b); auto.
  Qed.
  Lemma pops_ok n : forall ys xs, NoDup ys -> (forall y, In y ys -> In y (keys (nodes n)) /\ ~ In y xs) ->
    foreach (fun y => let! _ := pop_node y in ret tt) ys (without n xs []) = (without n (rev ys ++ xs) [], Ok tt).
  Proof.
    induction ys as [|y ys IH]; intros xs ND I; simpl foreach; auto.
    inversion ND; subst. destruct (I y (or_introl eq_refl)) as [Iy Ny].
    destruct (key_get _ _ Iy) as [nd G].
    assert (P : pop_node y (without n xs []) = (without n (y :: xs) [], Ok nd)).
    { unfold pop_node, mbind, getst. cbn [nodes without]. rewrite get_removed, (proj2 (mem_false_iff y xs) Ny), G.
      unfold modify, ret. rewrite without_node. auto. }
    unfold mbind at 1. unfold mbind at 1. rewrite P. unfold ret at 1. rewrite IH; auto.
    - simpl. rewrite <- app_assoc. auto.
    - intros z Iz. split; [apply I; simpl; auto|]. intros [->|J]; auto. apply (I z); simpl; auto.
  Qed.
  Lemma dels_ok n xs : forall fs es, fold_left (@graph_del_edge tval) fs (without n xs es) = without n xs (rev fs ++ es).
  Proof.
    induction fs as [|f fs IH]; intros es; simpl; auto. rewrite without_edge, IH, <- app_assoc. auto.
  Qed.
  Lemma without_inv n xs es : inv n ->
    (forall e, In e es -> ~ In e (opens n) /\ forall y, attached n y e -> In y xs) -> inv (without n xs es).
  Proof.
    intros [W NNn] He.
    assert (Gx : forall y nd, get y (removed xs (nodes n)) = Some nd -> get y (nodes n) = Some nd /\ ~ In y xs).
    { intros y nd. rewrite get_removed. destruct (mem_spec y xs); [discriminate|auto]. }
    assert (Ke : forall e, In e (keys (hidden es (edges n))) <-> In e (keys (edges n)) /\ ~ In e es).
    { intros e. rewrite keys_hidden, filter_In, negb_true_iff, mem_false_iff.
      tauto. }
    split.
    - constructor; cbn [nodes edges adj opens idc without].
      + rewrite keys_removed. apply NoDup_filter, W.
      + rewrite keys_hidden. apply NoDup_filter, W.
      + intros y nd e G J. apply Gx in G as [G Ny]. apply Ke. split; [eapply (wf_legs W); eauto|].
        intros Ie. apply Ny. apply (He e Ie). exists nd; auto.
      + intros y e. rewrite filter_In. simpl. rewrite (wf_adj W), andb_true_iff, !negb_true_iff, !mem_false_iff. split.
        * intros ((nd & G & J) & Ny & Ne). exists nd. split; auto. rewrite get_removed, (proj2 (mem_false_iff y xs) Ny). auto.
        * intros (nd & G & J). apply Gx in G as [G Ny]. split; [exists nd; auto|]. split; auto.
          intros Ie. apply Ny. apply (He e Ie). exists nd; auto.
      + apply NoDup_filter, W.
      + intros e Ie. apply Ke. split; [apply (wf_opens W); auto|]. intros J. apply (He e J); auto.
      + intros e ed fx G. rewrite get_hidden in G.
        destruct (mem e es); [discriminate|]. eapply (wf_fix W); eauto.
    - simpl. intros Q. apply Ke in Q. tauto.
  Qed.

  (** what a valid split into inner and outer part gives *)
  Record splits n (ys fs : list name) m : Prop := {
    sp_nd : NoDup ys;
    sp_ys : incl ys (keys (nodes n));
    sp_fs : forall e, In e fs -> In e (keys (edges n)) /\ ~ In e (opens n) /\ forall y, attached n y e -> In y ys;
    sp_inv : inv m;
    sp_content : forall y, option_map content (get y (nodes m)) =
                           if mem y ys then option_map content (get y (nodes n)) else None;
    sp_keys : forall e, In e (keys (edges m)) <-> In e fs \/ In e (opens m);
    sp_get : forall e, In e (keys (edges m)) -> get e (edges m) = get e (edges n);
    sp_apart : forall e, In e (opens m) -> ~ In e fs /\ In e (keys (edges n)) /\ edim n e <> None
  }.

  Lemma splits_regular n ys fs m : regular n -> splits n ys fs m -> regular m.
  Proof.
    intros [I F Sz Os] [E1 E2 E3 E4 E5 E6 E7 E8].
    assert (Gn : forall e ed, get e (edges m) = Some ed -> get e (edges n) = Some ed).
    { intros e ed G. rewrite <- E7; auto. eapply get_Some_key; eauto. }
    assert (Dm : forall e, In e (keys (edges m)) -> edim m e = edim n e).
    { intros e Ie. unfold edim. rewrite E7; auto. }
    constructor; auto.
    - intros e ed fx G. apply Gn in G. eapply F; eauto.
    - intros y nd G. specialize (E5 y). rewrite G in E5. simpl in E5. destruct (mem y ys); [|discriminate].
      destruct (get y (nodes n)) as [nd'|] eqn:Gy; [|discriminate]. simpl in E5. injection E5 as El Ev.
      destruct (Sz y nd' Gy) as (t & Et & Sh & Kn). exists t. rewrite Ev, El. split; auto.
      assert (Il : forall e, In e (n_legs nd') -> In e (keys (edges m))).
      { intros e Ie. eapply (wf_legs (proj1 E4)); eauto. rewrite El; auto. }
      split.
      + rewrite Sh. f_equal. apply map_ext_in. intros e Ie. symmetry. auto.
      + intros e Ie. rewrite Dm; auto.
    - intros e Ie. rewrite Dm; [apply E8; auto|]. apply E6; auto.
  Qed.

  Lemma splits_encapsulate n ys fs m x : regular n -> splits n ys fs m ->
    (In x (keys (nodes n)) -> In x ys) ->
    exists n', (foreach (fun y => let! _ := pop_node y in ret tt) ys ;;
      modify (fun n => fold_left (@graph_del_edge tval) fs n) ;;
      let! x := add_node x (Some (opens m)) (VNet m) false in ret (x, m)) n = (n', Ok (x, m)) /\
      regular n' /\ nested n n' ys fs x m.
  Proof.
    intros [I F Sz Os] [E1 E2 E3 E4 E5 E6 E7 E8] Nx.
    set (n1 := without n ys fs).
    assert (I1 : inv n1) by (apply without_inv; auto; intros e Ie; split; apply (E3 e Ie)).
    assert (Ke : forall e, In e (keys (edges n1)) <-> In e (keys (edges n)) /\ ~ In e fs).
    { intros e. unfold n1, without. cbn [edges]. rewrite keys_hidden, filter_In, negb_true_iff, mem_false_iff.
      tauto. }
    assert (De : forall e, ~ In e fs -> get e (edges n1) = get e (edges n)).
    { intros e Ne. unfold n1, without. cbn [edges]. rewrite get_hidden, (proj2 (mem_false_iff e fs) Ne). auto. }
    assert (Nx1 : ~ In x (keys (nodes n1))).
    { unfold n1, without. cbn [nodes]. rewrite keys_removed, filter_In, negb_true_iff, mem_false_iff.
      tauto. }
    assert (Om : forall e, In e (opens m) -> edim m e = edim n1 e).
    { intros e Ie. unfold edim. rewrite E7, De; [auto|apply (E8 e Ie)|apply E6; auto]. }
    assert (Nl : ~ In NN (opens m)) by (intros Q; apply (proj2 E4), E6; auto).
    assert (A : add_node x (Some (opens m)) (VNet m) false n1 = (plus_node' n1 x (opens m) true (VNet m) false, Ok x)).
    { apply add_node_known; auto.
      - simpl. f_equal. apply map_ext_in. intros e Ie. apply Om; auto.
      - intros e Ie. apply Ke. split; apply (E8 e Ie). }
    set (n' := plus_node' n1 x (opens m) true (VNet m) false) in *.
    assert (D1 : forall e, edim n' e = edim n1 e) by reflexivity.
    exists n'. split; [|split; [constructor|constructor]]; auto.
    - pose proof (@pops_ok n ys [] E1) as P. rewrite without_nil in P. unfold mbind at 1.
      rewrite P; [|intros y Iy; split; auto]. unfold mbind, modify. rewrite dels_ok.
      replace (without n (rev ys ++ []) (rev fs ++ [])) with n1.
      + rewrite A. reflexivity.
      + apply without_equiv; intros b; rewrite app_nil_r, <- in_rev; tauto.
    - split.
      + eapply add_node_wf; [exact A| |apply I1]. auto.
      + simpl. apply I1.
    - intros e ed fx G. unfold n', n1, plus_node', without in G. cbn [edges] in G. rewrite get_hidden in G.
      destruct (mem e fs); [discriminate|]. eapply F; eauto.
    - intros y nd G. unfold n', n1, plus_node', without in G. cbn [nodes] in G. rewrite get_app in G.
      destruct (get y (removed ys (nodes n))) as [nd'|] eqn:Gy.
      + injection G as <-. rewrite get_removed in Gy.
        destruct (mem_spec y ys) as [Iy|Ny]; [discriminate|].
        destruct (Sz y nd' Gy) as (t & Et & Sh & Kn). exists t. split; auto.
        assert (Dy : forall e, In e (n_legs nd') -> edim n' e = edim n e).
        { intros e Ie. rewrite D1. unfold edim. rewrite De; auto. intros J. apply Ny. apply (E3 e J). exists nd'; auto. }
        split.
        * rewrite Sh. f_equal. apply map_ext_in. intros e Ie. rewrite Dy; auto.
        * intros e Ie. rewrite Dy; auto.
      + simpl in G. destruct (eqb y x); [|discriminate]. injection G as <-. exists (VNet m). split; auto. simpl. split.
        * f_equal. apply map_ext_in. intros e Ie. rewrite D1. apply Om; auto.
        * intros e Ie. rewrite D1. unfold edim. rewrite De by apply (E8 e Ie). apply (E8 e Ie).
    - intros e Ie. unfold n' in Ie. simpl in Ie. rewrite app_nil_r in Ie. rewrite D1. unfold edim. rewrite De.
      + apply Os; auto.
      + intros J. apply (E3 e J); auto.
    - intros e Ie. split; apply (E3 e Ie).
    - intros e y nd Ie G J. apply (E3 e Ie). exists nd; auto.
    - apply E4.
    - intros e Ie. split; apply (E8 e Ie).
    - unfold n'. simpl. rewrite Permutation_app_comm. simpl. auto.
    - unfold n'. simpl. rewrite app_nil_r. auto.
  Qed.

  (** ** the requests *)

  Lemma inner_edges_In n xs e : wf n ->
    In e (inner_edges n xs) <-> touched n xs e /\ ~ In e (opens n) /\ forall y, attached n y e -> In y xs.
  Proof.
    intros W. unfold inner_edges. rewrite filter_In, node_edges_In, andb_true_iff, negb_true_iff, mem_false_iff, forallb_forall by auto.
    split.
    - intros (T & A & O). split; auto. split; auto. intros y (nd & G & J). apply mem_In, A, adj_nodes_In, (wf_adj W). eauto.
    - intros (T & O & A). split; auto. split; auto. intros y Iy. apply mem_In, A. apply adj_nodes_In, (wf_adj W) in Iy. auto.
  Qed.
  Lemma edge_nodes_In n es y : wf n -> In y (edge_nodes n es) <-> exists e, In e es /\ attached n y e.
  Proof.
    intros W. unfold edge_nodes. rewrite dedup_In, in_concat. split.
    - intros (l & I & J). apply in_map_iff in I as (e & <- & I). exists e. split; auto. apply (wf_adj W), adj_nodes_In; auto.
    - intros (e & I & J). exists (adj_nodes n e). split; [apply in_map; auto|]. apply adj_nodes_In, (wf_adj W); auto.
  Qed.
  Lemma edge_nodes_NoDup n es : NoDup (edge_nodes n es).
  Proof. apply dedup_NoDup. Qed.

  Lemma touched_iff n xs e : touched n xs e <-> exists y, In y xs /\ attached n y e.
  Proof.
    split.
    - intros (y & nd & I & G & J). exists y. split; auto. exists nd; auto.
    - intros (y & I & nd & G & J). exists y, nd. auto.
  Qed.

  (** the parts computed by subtn are those asked for *)
  Lemma sub_parts_ok n xs es os : regular n -> request n xs es os -> exists ys fs,
    sub_parts ord n xs es = Ok (ys, fs) /\ NoDup ys /\ incl ys (keys (nodes n)) /\
    (forall y, In y ys <-> chosen n xs es y) /\ (forall e, In e fs <-> moved n xs es e) /\
    ((xs, es) <> (None, None) -> forall e, In e fs -> touched n ys e) /\
    (forall e, In e fs -> In e (keys (edges n)) /\ ~ In e (opens n) /\ forall y, attached n y e -> In y ys).
  Proof.
    intros [[W NNn] F Sz Os] [R1 R2 _ _].
    assert (Ak : forall y e, attached n y e -> In y (keys (nodes n)) /\ In e (keys (edges n))).
    { intros y e (nd & G & J). split; [eapply get_Some_key; eauto|eapply (wf_legs W); eauto]. }
    unfold sub_parts. destruct xs as [xs|].
    - destruct (R1 xs eq_refl) as [ND Ix].
      assert (Hb : forallb (fun x => has x (nodes n)) xs = true).
      { apply forallb_forall. intros y Iy. apply has_In; auto. }
      rewrite Hb. destruct es as [es|].
      + assert (He : forallb (fun e => mem e (inner_edges n xs)) es = true).
        { apply forallb_forall. intros e Ie. apply mem_In, inner_edges_In; auto.
          destruct (R2 es e eq_refl Ie) as ((y & Ay) & O & A). split; auto. apply touched_iff. exists y. split; auto. apply (A y Ay). }
        rewrite He. exists xs, es. simpl. split; [auto|]. split; auto. split; auto. split; [tauto|]. split; [tauto|]. split.
        * intros _ e Ie. destruct (R2 es e eq_refl Ie) as ((y & Ay) & O & A). apply touched_iff. exists y. split; auto. apply (A y Ay).
        * intros e Ie. destruct (R2 es e eq_refl Ie) as ((y & Ay) & O & A). split; [apply (Ak _ _ Ay)|]. split; auto.
      + assert (Hf : forall e, In e (ord (inner_edges n xs)) <-> touched n xs e /\ ~ In e (opens n) /\ forall y, attached n y e -> In y xs).
        { intros e. rewrite ord_In, inner_edges_In by auto. tauto. }
        exists xs, (ord (inner_edges n xs)). split; [auto|]. split; auto. split; auto. split; [simpl; tauto|]. split; [|split].
        * intros e. rewrite Hf. simpl. rewrite touched_iff. tauto.
        * intros _ e Ie. apply Hf in Ie. tauto.
        * intros e Ie. apply Hf in Ie as (T & O & A). split; auto. apply touched_iff in T as (y & _ & Ay). apply (Ak _ _ Ay).
    - destruct es as [es|].
      + assert (Hb : forallb (fun e => has e (edges n)) es = true).
        { apply forallb_forall. intros e Ie. apply has_In. destruct (R2 es e eq_refl Ie) as ((y & Ay) & _). apply (Ak _ _ Ay). }
        rewrite Hb. exists (ord (edge_nodes n es)), es.
        assert (Hy : forall y, In y (ord (edge_nodes n es)) <-> exists e, In e es /\ attached n y e).
        { intros y. rewrite ord_In, edge_nodes_In by auto. tauto. }
        split; [auto|]. split; [apply ord_NoDup, edge_nodes_NoDup|]. split.
        { intros y Iy. apply Hy in Iy as (e & _ & A). apply (Ak _ _ A). }
        split; [simpl; auto|]. split; [simpl; tauto|]. split.
        * intros _ e Ie. destruct (R2 es e eq_refl Ie) as ((y & Ay) & O & A). apply touched_iff. exists y. split; auto.
          apply Hy. exists e; auto.
        * intros e Ie. destruct (R2 es e eq_refl Ie) as ((y & Ay) & O & A). split; [apply (Ak _ _ Ay)|]. split; auto.
          intros z Az. apply Hy. exists e; auto.
      + assert (Hf : forall e, In e (ord (closed_edges n)) <-> In e (keys (edges n)) /\ ~ In e (opens n)).
        { intros e. rewrite ord_In. unfold closed_edges. rewrite filter_In, negb_true_iff, mem_false_iff. tauto. }
        exists (keys (nodes n)), (ord (closed_edges n)). split; [auto|]. split; [apply W|]. split; [intros ? ?; auto|].
        split; [simpl; tauto|]. split; [simpl; auto|]. split; [congruence|].
        intros e Ie. apply Hf in Ie as [K O]. split; auto. split; auto. intros y Ay. apply (Ak _ _ Ay).
  Qed.

  Lemma subtn_ok n xs es os : regular n -> request n xs es os -> exists ys fs m,
    subtn ord n xs es os = Ok (ys, fs, m) /\ splits n ys fs m /\
    (forall y, In y ys <-> chosen n xs es y) /\ (forall e, In e fs <-> moved n xs es e) /\
    ((xs, es) <> (None, None) -> (forall e, In e (opens m) <-> boundary n xs es e) /\ (forall l, os = Some l -> opens m = l) /\ (os = None -> NoDup (opens m))).
  Proof.
    intros R Q. pose proof R as [[W NNn] F Sz Os].
    destruct (sub_parts_ok R Q) as (ys & fs & P & ND & Iy & Cy & Cf & Tf & Hf).
    destruct (option_map (fun _ => tt) xs) as [u|] eqn:Xs, (option_map (fun _ => tt) es) as [v|] eqn:Es.
    4:{ destruct xs; [discriminate|]. destruct es; [discriminate|]. exists ys, fs, (copy_tn n).
        split; [unfold subtn; rewrite P; reflexivity|]. split; [|split; [auto|split; [auto|congruence]]].
        assert (Ey : forall y, In y ys <-> In y (keys (nodes n))) by (intros y; rewrite Cy; simpl; tauto).
        constructor; auto.
        - split; auto. destruct W. constructor; auto.
        - intros y. simpl. destruct (mem_spec y ys) as [J|J]; auto. rewrite (proj2 (get_None y (nodes n))); auto. rewrite <- Ey; auto.
        - intros e. simpl. rewrite Cf. simpl. split; [|intros [J|J]; [tauto|apply (wf_opens W); auto]].
          intros J. destruct (mem_spec e (opens n)); auto.
        - intros e Ie. simpl in Ie. split; [rewrite Cf; simpl; tauto|]. split; [apply (wf_opens W); auto|auto]. }
    1-3: assert (N2 : (xs, es) <> (None, None)) by (destruct xs, es; congruence || discriminate); clear Xs Es.
    all: assert (B : forall e, In e (outer_edges ord n ys fs) <-> touched n ys e /\ ~ In e fs);
      [intros e; unfold outer_edges; rewrite filter_In, ord_In, filter_In, node_edges_In, !negb_true_iff, mem_false_iff by auto;
       split; [tauto|]; intros [T Nf]; split; auto; apply (rq_fix Q N2); split;
         [apply touched_iff in T as (y & J & Ay); exists y; split; auto; apply Cy; auto|rewrite <- Cf; auto] |].
    all: assert (Bb : forall e, boundary n xs es e <-> touched n ys e /\ ~ In e fs);
      [intros e; unfold boundary; rewrite touched_iff, Cf; split; intros [(y & J & Ay) Nm]; split; auto; exists y; split; auto; apply Cy; auto|].
    all: assert (HO : exists os', match os with None => Ok (outer_edges ord n ys fs)
          | Some l => if forallb (fun e => mem e (outer_edges ord n ys fs)) l && forallb (fun e => mem e l) (outer_edges ord n ys fs) then Ok l
                      else Err AssertionError end = Ok os' /\ (forall e, In e os' <-> touched n ys e /\ ~ In e fs) /\ (forall l, os = Some l -> os' = l) /\ (os = None -> NoDup os'));
      [destruct os as [l|]; [|eexists; split; [reflexivity|split; [auto|split; [congruence|intros _; unfold outer_edges; apply NoDup_filter, ord_NoDup, NoDup_filter; unfold node_edges; apply dedup_NoDup]]]]; exists l;
       assert (Hl : forall e, In e l <-> touched n ys e /\ ~ In e fs) by (intros e; rewrite (rq_opens Q e eq_refl N2); auto);
       split; [|split; [auto|split; congruence]];
       rewrite (proj2 (forallb_forall (fun e => mem e (outer_edges ord n ys fs)) l)), (proj2 (forallb_forall (fun e => mem e l) (outer_edges ord n ys fs)));
         [reflexivity|intros e Ie; apply mem_In, Hl, B; auto|intros e Ie; apply mem_In, B, Hl; auto]|].
    all: destruct HO as (os' & HO & Ho & Hl & Hn).
    all: destruct (@sub_net_ok S n ys fs os') as (m & Em & [S1 S2 S3 S4 S5]);
      [split; auto|auto|auto|auto|intros e Ie; apply Tf; auto|intros e Ie; apply Ho; auto|
       intros e T Nf; apply (rq_fix Q N2), Bb; auto|].
    all: exists ys, fs, m; split; [unfold subtn; rewrite P; cbn [bind fst snd];
      destruct xs as [xs|], es as [es|]; try congruence; rewrite HO; cbn [bind]; rewrite Em; reflexivity|].
    all: split; [|split; [auto|split; [auto|intros _; split; [intros e; rewrite Bb, S3; auto|split; [intros l El; rewrite S3; auto|intros El; rewrite S3; auto]]]]]; constructor; auto.
    all: rewrite ?S3.
    1,5,9: intros y; rewrite S2, picked_get; destruct (mem y ys); auto; destruct (get y (nodes n)); auto.
    1,4,7: intros e; rewrite S4, Ho; split; [intros T; destruct (mem_spec e fs); auto|intros [J|J]; [apply Tf; auto|tauto]].
    1,3,5: intros e Ie; rewrite S5; auto; apply S4; auto.
    all: intros e Ie; apply Ho in Ie as [T Nf]; split; auto; destruct T as (y & nd & J & G & Il);
      split; [eapply (wf_legs W); eauto|]; destruct (Sz y nd G) as (t & Et & Sh & Kn); auto.
  Qed.

  Theorem encapsulate_ok n xs es os x : regular n -> request n xs es os ->
    (In x (keys (nodes n)) -> chosen n xs es x) ->
    exists n' m, encapsulate ord xs es os x n = (n', Ok (x, m)) /\ regular n' /\ regular m /\
      (forall o, value n' o = value n o) /\ exists ys fs, nested n n' ys fs x m /\
      (forall y, In y ys <-> chosen n xs es y) /\ (forall e, In e fs <-> moved n xs es e) /\
      ((xs, es) <> (None, None) -> (forall e, In e (opens m) <-> boundary n xs es e) /\ (forall l, os = Some l -> opens m = l) /\ (os = None -> NoDup (opens m))).
  Proof.
    intros R Q Nx. destruct (subtn_ok R Q) as (ys & fs & m & E & Sp & Cy & Cf & Cb).
    destruct (@splits_encapsulate n ys fs m x R Sp) as (n' & A & R' & Ne).
    { intros J. apply Cy; auto. }
    exists n', m. split; [|split; [auto|split; [exact (splits_regular R Sp)|split]]].
    - unfold encapsulate, mbind at 1, getst. unfold mbind at 1, lift. rewrite E. exact A.
    - intros o. eapply nested_value; eauto; apply R.
    - exists ys, fs. auto.
  Qed.
End Enc.

Section More.
  Context {S : scalar}.
  Notation tval := (tval S).
  Notation net := (tn tval).
  Notation pv := (@tval_value S).
  Notation value := (tn_value pv).
  Implicit Types (n m : net) (x e : name).
  Variable ord : list name -> list name.
  Variable Hord : forall l, Permutation (ord l) l.

  Section Facts.
    Variables (n n' m : net) (ys fs : list name) (x : name).
    Hypothesis W : wf n.
    Hypothesis W' : wf n'.
    Hypothesis Ne : nested n n' ys fs x m.
    Lemma nested_get y nd : y <> x -> get y (nodes n') = Some nd <-> get y (nodes n) = Some nd /\ ~ In y ys.
    Proof.
      intros N. rewrite <- (get_removed_iff (S := S)).
      split; intros G.
      - apply get_In in G. apply (Permutation_in _ (ne_nodes Ne)) in G as [G|G]; [congruence|].
        apply In_get; auto. rewrite keys_removed. apply NoDup_filter, W.
      - apply get_In in G. apply In_get; [apply W'|]. apply (Permutation_in _ (Permutation_sym (ne_nodes Ne))). simpl; auto.
    Qed.
    Lemma nested_get_new : get x (nodes n') = Some (Node (opens m) true (Some (VNet m))).
    Proof. apply In_get; [apply W'|]. apply (Permutation_in _ (Permutation_sym (ne_nodes Ne))). simpl; auto. Qed.
    Lemma nested_keys y : In y (keys (nodes n')) <-> y = x \/ In y (keys (nodes n)) /\ ~ In y ys.
    Proof.
      assert (P : Permutation (keys (nodes n')) (x :: keys (removed ys (nodes n)))) by apply (Permutation_map fst (ne_nodes Ne)).
      rewrite keys_removed in P. split.
      - intros I. apply (Permutation_in _ P) in I as [I|I]; auto. right. apply filter_In in I as [I Q].
        apply negb_true_iff, mem_false_iff in Q. auto.
      - intros I. apply (Permutation_in _ (Permutation_sym P)). destruct I as [->|[I Q]]; simpl; auto. right.
        apply filter_In. split; auto. apply negb_true_iff, mem_false_iff; auto.
    Qed.
    Lemma nested_attached y e : y <> x -> attached n' y e <-> attached n y e /\ ~ In y ys.
    Proof.
      intros N. split.
      - intros (nd & G & J). apply nested_get in G as [G Q]; auto. split; auto. exists nd; auto.
      - intros [(nd & G & J) Q]. exists nd. split; auto. apply nested_get; auto.
    Qed.
    Lemma nested_attached_new e : attached n' x e <-> In e (opens m).
    Proof.
      split.
      - intros (nd & G & J). rewrite nested_get_new in G. injection G as <-. auto.
      - intros J. exists (Node (opens m) true (Some (VNet m))). split; auto. apply nested_get_new.
    Qed.
    Lemma nested_edge e : get e (edges n') = if mem e fs then None else get e (edges n).
    Proof.
      rewrite <- get_hidden. apply perm_get; [apply W'|apply (ne_edges Ne)].
    Qed.
  End Facts.

  (** ** several disjoint groups *)
  Definition enc_groups (gs : list (list name * name)) : @M tval unit :=
    foreach (fun g => let! _ := encapsulate ord (Some (fst g)) None None (snd g) in ret tt) gs.

  Lemma enc_groups_ok : forall gs n, regular n ->
    NoDup (concat (map fst gs)) -> incl (concat (map fst gs)) (keys (nodes n)) ->
    NoDup (map snd gs) -> (forall x, In x (map snd gs) -> ~ In x (keys (nodes n))) ->
    (forall g e, In g gs -> boundary n (Some (fst g)) None e -> is_fixed n e = false) ->
    exists n', enc_groups gs n = (n', Ok tt) /\ regular n' /\ forall o, value n' o = value n o.
  Proof.
    induction gs as [|[ys x] gs IH]; intros n R ND I NDx Nx Hb.
    { exists n. auto. }
    simpl in *. apply NoDup_app_iff in ND as (ND1 & ND2 & Dj). inversion NDx as [|? ? Nx' NDx']; subst.
    destruct (@encapsulate_ok S ord Hord n (Some ys) None None x R) as (n1 & m & E & R1 & Rm & V & zs & fs & Ne & Cy & Cf & Cb).
    { constructor; try discriminate.
      - intros l Q. injection Q as <-. split; auto. intros a Ia. apply I, in_app_iff; auto.
      - intros _ e B. apply (Hb (ys, x)); auto. }
    { intros J. exfalso. apply (Nx x); auto. }
    destruct Cb as [Cb _]; [congruence|]. simpl in Cy.
    pose proof (proj1 (rg_inv R)) as W. pose proof (proj1 (rg_inv R1)) as W1.
    assert (Nxg : forall g y, In g gs -> In y (fst g) -> y <> x /\ ~ In y zs).
    { intros g y Ig Iy. assert (In y (concat (map fst gs))) by (apply in_concat; exists (fst g); split; auto; apply in_map; auto).
      split.
      - intros ->. apply (Nx x); auto. apply I, in_app_iff; auto.
      - rewrite Cy. intros J. apply (Dj y); auto. }
    destruct (IH n1) as (n2 & E2 & R2 & V2); auto.
    - intros y Iy. apply (nested_keys Ne). right. apply in_concat in Iy as (l & Il & Iy).
      apply in_map_iff in Il as (g & <- & Ig). destruct (Nxg g y Ig Iy) as [_ Nz]. split; auto. apply I, in_app_iff. right.
      apply in_concat. exists (fst g). split; auto. apply in_map; auto.
    - intros y Iy J. apply (nested_keys Ne) in J as [->|[J _]]; auto. apply (Nx y); auto.
    - intros g e Ig [(y & Iy & Ay) Nm]. destruct (Nxg g y Ig Iy) as [Nyx Nyz].
      apply (nested_attached W W1 Ne) in Ay as [Ay _]; auto.
      assert (B : boundary n (Some (fst g)) None e).
      { split; [exists y; auto|]. intros (Q1 & Q2 & Q3). apply Nm. split; [|split].
        - exists y. split; auto. apply (nested_attached W W1 Ne); auto.
        - rewrite (ne_opens Ne). auto.
        - intros z Az. destruct (eq_dec_of_eqb z x) as [->|Nz].
          + exfalso. apply (nested_attached_new W1 Ne) in Az. apply Cb in Az as [(z & Iz & Az) _].
            apply (Nxg g z); auto. apply Cy; auto.
          + apply (nested_attached W W1 Ne) in Az as [Az _]; auto. }
      specialize (Hb g e (or_intror Ig) B). unfold is_fixed in *. rewrite (nested_edge W1 Ne).
      destruct (mem e fs); auto.
    - exists n2. split; [|split; auto].
      + unfold enc_groups. simpl foreach. unfold mbind at 1. unfold mbind at 1. rewrite E. exact E2.
      + intros o. rewrite V2. auto.
  Qed.

  (** ** simplify *)

  Lemma combinations2_In (l : list name) a b : In (a, b) (combinations2 l) -> In a l /\ In b l /\ (NoDup l -> a <> b).
  Proof.
    induction l as [|c l IH]; simpl; [tauto|]. rewrite in_app_iff, in_map_iff. intros [(d & Q & I)|I].
    - injection Q as -> ->. split; auto. split; auto. intros ND. inversion ND; subst. congruence.
    - destruct (IH I) as (A & B & C). split; auto. split; auto. intros ND. inversion ND; subst. auto.
  Qed.
  Lemma adj_nodes_NoDup n e : wf n -> NoDup (adj_nodes n e).
  Proof.
    intros W. unfold adj_nodes. pose proof (wf_adj_nodup W) as ND. induction (adj n) as [|[a b] l IH]; simpl; [constructor|].
    inversion ND; subst. destruct (eqb_spec e b) as [->|N]; simpl; auto. constructor; auto.
    intros J. apply in_map_iff in J as ([c d] & Q & J). apply filter_In in J as [J Q']. simpl in *. apply eqb_true in Q'. subst. auto.
  Qed.
  Lemma simplify_pair_ok n a b : wf n -> simplify_pair n = Some (a, b) ->
    a <> b /\ In a (keys (nodes n)) /\ In b (keys (nodes n)).
  Proof.
    intros W E. unfold simplify_pair in E. apply find_some in E as [I _].
    apply in_concat in I as (l & Il & I). apply in_map_iff in Il as (e & <- & _).
    apply combinations2_In in I as (A & B & C). split; [apply C, adj_nodes_NoDup; auto|].
    assert (H : forall y, In y (adj_nodes n e) -> In y (keys (nodes n))).
    { intros y J. apply adj_nodes_In, (wf_adj W) in J as (nd & G & _). eapply get_Some_key; eauto. }
    auto.
  Qed.

  Lemma length_without (l ys : list name) : NoDup l -> NoDup ys -> incl ys l ->
    length (filter (fun k => negb (mem k ys)) l) + length ys = length l.
  Proof.
    intros ND1 ND2 I. rewrite (Permutation_length (filter_perm_split (fun k => mem k ys) l)), app_length.
    rewrite Nat.add_comm. f_equal. symmetry. apply Permutation_length, NoDup_Permutation; auto.
    - apply NoDup_filter; auto.
    - intros a. rewrite filter_In, mem_In. split; auto. tauto.
  Qed.

  Lemma simplify_ok : forall ids n, regular n -> no_fixes n -> NoDup ids ->
    (forall x, In x ids -> ~ In x (keys (nodes n))) -> length (nodes n) <= length ids ->
    forall rec, exists n', simplify ord ids rec n = (n', Ok tt) /\ regular n' /\
      (forall o, value n' o = value n o) /\ (rec = true -> simplify_pair n' = None).
  Proof.
    induction ids as [|x ids IH]; intros n R NF ND Nx L rec.
    - assert (simplify_pair n = None).
      { destruct (simplify_pair n) as [[a b]|] eqn:P; auto. apply simplify_pair_ok in P as (_ & Ia & _); [|apply R].
        unfold keys in Ia. destruct (nodes n); simpl in *; [tauto|lia]. }
      exists n. cbn [simplify]. unfold mbind, getst. rewrite H. auto.
    - cbn [simplify]. unfold mbind at 1, getst. destruct (simplify_pair n) as [[a b]|] eqn:P; [|exists n; auto 10].
      destruct (simplify_pair_ok (proj1 (rg_inv R)) P) as (Nab & Ia & Ib).
      destruct (@encapsulate_ok S ord Hord n (Some [a; b]) None None x R) as (n1 & m & E & R1 & Rm & V & zs & fs & Ne & Cy & Cf & Cb).
      { constructor; try discriminate; auto. intros l Q. injection Q as <-. split.
        - constructor; [simpl; intuition congruence|constructor; [simpl; tauto|constructor]].
        - intros c [<-|[<-|[]]]; auto. }
      { intros J. exfalso. apply (Nx x); simpl; auto. }
      unfold mbind at 1. rewrite E. destruct rec; [|exists n1; split; auto; split; auto; split; [auto|discriminate]].
      simpl in Cy. inversion ND; subst.
      pose proof (proj1 (rg_inv R)) as W. pose proof (proj1 (rg_inv R1)) as W1.
      destruct (IH n1 R1) with (rec := true) as (n2 & E2 & R2 & V2 & D2); auto.
      + intros e. unfold is_fixed. rewrite (nested_edge W1 Ne). destruct (mem e fs); auto. apply NF.
      + intros y Iy J. apply (nested_keys Ne) in J as [->|[J _]]; auto. apply (Nx y); simpl; auto.
      + pose proof (Permutation_length (ne_nodes Ne)) as PL. simpl in PL.
        assert (LR : length (removed zs (nodes n)) + 2 = length (nodes n)).
        { transitivity (length (keys (removed zs (nodes n))) + length [a; b]); [unfold keys; rewrite map_length; auto|].
          rewrite keys_removed. rewrite (filter_ext _ (fun k => negb (mem k [a; b]))).
          - rewrite length_without; [unfold keys; rewrite map_length; auto|apply W| |].
            + constructor; [simpl; intuition congruence|constructor; [simpl; tauto|constructor]].
            + intros c [<-|[<-|[]]]; auto.
          - intros k. f_equal. apply mem_equiv. intros c. rewrite Cy. simpl. tauto. }
        simpl in L. lia.
      + exists n2. split; auto. split; auto. split; [intros o; rewrite V2; auto|auto].
  Qed.
End More.
