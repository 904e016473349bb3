(** The networks built by the operators on tensor-valued objects and their values. *)
From Verif Require Import Base Scalar NetSpec Sums NetAlg ModelArray ModelTN TNInv TNOps TNSpec TNMerge TNDelta TNValue
  TNValue2 TNExact ModelVal ModelOps.
Set Implicit Arguments.

Lemma range_names_NoDup n : NoDup (range_names n).
Proof.
  unfold range_names. apply FinFun.Injective_map_NoDup; [|apply seq_NoDup].
  intros a b E. inversion E. apply Nat2Z.inj; auto.
Qed.
Lemma range_names_NN n : ~ In NN (range_names n).
Proof. unfold range_names. intros I. apply in_map_iff in I as (i & E & _). discriminate. Qed.
Lemma range_names_length n : length (range_names n) = n.
Proof. unfold range_names. rewrite map_length, seq_length; auto. Qed.

Section Grow.
  Context {T : Type} `{PT : Payload T}.
  Notation net := (tn T).
  Implicit Types (n : net) (x e : name).

  Definition plus_node' n x legs (mut : bool) (t : T) (op : bool) : net :=
    TN (nodes n ++ [(x, Node legs mut (Some t))]) (edges n)
       (add_adjs (adj n) (map (fun e => (x, e)) legs))
       (opens n ++ (if op then legs else [])) (idc n).

  (** add_node when the loop over the legs only appends edges *)
  Lemma add_node_grow x es t op n E legs mut :
    ~ In x (keys (nodes n)) ->
    (es = Some legs /\ mut = true \/
     es = None /\ mut = false /\ exists sh, pshape t = Some sh /\ legs = range_names (length sh)) ->
    incl legs (keys E) ->
    pshape t = Some (map (edim (with_edges n E)) legs) ->
    (forall n0, edges n0 = edges n -> foreach (add_leg (pshape t)) (enum legs) n0 = (with_edges n0 E, Ok tt)) ->
    add_node x es t op n = (plus_node' (with_edges n E) x legs mut t op, Ok x).
  Proof.
    intros Nx Hes I Sh Loop. unfold add_node.
    assert (Hx : has x (nodes n) = false).
    { destruct (has x (nodes n)) eqn:Q; auto. apply has_In in Q; tauto. }
    rewrite (@mbind_eq _ _ _ getst _ n n n eq_refl), Hx.
    set (m := match es with Some l => _ | None => _ end).
    assert (Em : m n = (n, Ok (legs, mut))).
    { unfold m. destruct Hes as [[-> ->]|(-> & -> & sh & Es & ->)]; [reflexivity|]. rewrite Es. reflexivity. }
    rewrite (@mbind_eq _ _ _ m _ n n (legs, mut) Em).
    set (n0 := with_nodes n (nodes n ++ [(x, Node legs mut None)])).
    rewrite (@mbind_eq _ _ _ _ _ n n0 tt) by reflexivity.
    set (nE := with_edges n0 E).
    rewrite (@mbind_eq _ _ _ _ _ n0 nE tt) by (apply Loop; reflexivity).
    set (n1 := with_adj nE (add_adjs (adj n) (map (fun e => (x, e)) legs))).
    rewrite (@mbind_eq _ _ _ _ _ nE n1 tt).
    2:{ unfold modify. rewrite graph_connect_known by exact I. reflexivity. }
    set (n2 := with_nodes n1 (nodes n ++ [(x, Node legs mut (Some t))])).
    rewrite (@mbind_eq _ _ _ _ _ n1 n2 tt).
    2:{ rewrite (@update_node_same _ _ x t (Node legs mut None) n1); auto.
        - simpl n_legs. simpl n_mut. unfold n1, nE, n0. simpl nodes. rewrite set_snoc by auto. reflexivity.
        - unfold n1, nE, n0. simpl. rewrite get_snoc, eqb_refl; auto. }
    rewrite (@mbind_eq _ _ _ _ _ n2 (plus_node' (with_edges n E) x legs mut t op) tt); [reflexivity|].
    destruct op.
    - rewrite open_edges_same by exact I. reflexivity.
    - unfold plus_node', n2. simpl. rewrite app_nil_r. reflexivity.
  Qed.

  Definition new_edges (legs : list name) (ds : list (option nat)) : list (name * edge) :=
    map (fun p => (fst p, Edge (snd p) None)) (combine legs ds).

  Lemma with_edges_same n : with_edges n (edges n) = n.
  Proof. destruct n; reflexivity. Qed.
  Lemma keys_new_edges legs ds : length legs = length ds -> keys (new_edges legs ds) = legs.
  Proof.
    unfold new_edges, keys. rewrite map_map. simpl. revert ds; induction legs as [|e r IH]; intros [|d q] L; simpl in *; auto; try lia.
    f_equal. apply IH. lia.
  Qed.

  Lemma add_legs_fresh sh : forall legs ds n pre rest,
    sh = pre ++ ds ++ rest -> length ds = length legs ->
    NoDup legs -> (forall e, In e legs -> ~ In e (keys (edges n))) -> ~ In NN legs ->
    foreach (add_leg (Some sh)) (combine (seq (length pre) (length legs)) legs) n =
    (with_edges n (edges n ++ new_edges legs ds), Ok tt).
  Proof.
    induction legs as [|e r IH]; intros ds n pre rest Esh L ND Hf Hn.
    - simpl. unfold new_edges. simpl. rewrite app_nil_r, with_edges_same. reflexivity.
    - destruct ds as [|d ds]; [discriminate|]. inversion ND as [|? ? Ne ND']; subst.
      cbn [combine seq length foreach]. unfold mbind, add_leg at 1. cbn [fst snd].
      assert (Q : nth_error (pre ++ (d :: ds) ++ rest) (length pre) = Some d).
      { simpl. rewrite nth_error_app2 by lia. rewrite Nat.sub_diag. reflexivity. }
      rewrite Q. unfold mbind. rewrite add_edge_fresh.
      + change (ret tt ?q) with (q, Ok tt : res unit). cbn iota beta.
        set (n1 := with_edges n (edges n ++ [(e, Edge d None)])).
        replace (S (length pre)) with (length (pre ++ [d])) by (rewrite app_length; simpl; lia).
        rewrite (IH ds n1 (pre ++ [d]) rest); auto.
        * unfold n1, new_edges. simpl. rewrite <- app_assoc. reflexivity.
        * rewrite <- !app_assoc. reflexivity.
        * intros a Ia. unfold n1. simpl. rewrite keys_app, in_app_iff. simpl. intros [Z|[Z|[]]].
          -- apply (Hf a); simpl; auto.
          -- subst a. tauto.
        * simpl in Hn; tauto.
      + apply Hf; simpl; auto.
      + simpl in Hn; intros ->; tauto.
  Qed.

  Lemma edim_new_edges n legs ds : length ds = length legs -> NoDup legs ->
    (forall e, In e legs -> ~ In e (keys (edges n))) ->
    map (edim (with_edges n (edges n ++ new_edges legs ds))) legs = ds.
  Proof.
    intros L ND Hf. unfold edim. cbn [edges with_edges].
    transitivity (map (fun e => match get e (new_edges legs ds) with Some ed => e_dim ed | None => None end) legs).
    { apply map_ext_in. intros e I. rewrite get_app.
      destruct (get e (edges n)) eqn:G; auto. apply get_Some_key in G. exfalso. apply (Hf e); auto. }
    clear Hf. revert ds L; induction legs as [|e r IH]; intros [|d ds] L; simpl in *; auto; try lia.
    inversion ND as [|? ? Ne ND']; subst. rewrite eqb_refl. simpl. f_equal.
    transitivity (map (fun e => match get e (new_edges r ds) with Some ed => e_dim ed | None => None end) r);
      [|apply IH; auto; lia]. apply map_ext_in. intros a Ia.
    assert (N : eqb a e = false) by (apply eqb_neq; intros ->; tauto). rewrite N. reflexivity.
  Qed.

  (** all legs new *)
  Lemma add_node_fresh x es t op n legs mut ds :
    ~ In x (keys (nodes n)) ->
    (es = Some legs /\ mut = true \/
     es = None /\ mut = false /\ exists sh, pshape t = Some sh /\ legs = range_names (length sh)) ->
    pshape t = Some ds -> length ds = length legs -> NoDup legs -> ~ In NN legs ->
    (forall e, In e legs -> ~ In e (keys (edges n))) ->
    add_node x es t op n =
    (plus_node' (with_edges n (edges n ++ new_edges legs ds)) x legs mut t op, Ok x).
  Proof.
    intros Nx Hes Sh L ND NN' Hf. apply add_node_grow; auto.
    - rewrite keys_app, keys_new_edges by auto. intros a Ia. apply in_app_iff. auto.
    - rewrite Sh. f_equal. symmetry. apply edim_new_edges; auto.
    - intros n0 E0. rewrite Sh, <- E0. unfold enum.
      apply (@add_legs_fresh ds legs ds n0 [] []); auto.
      + simpl. rewrite app_nil_r; auto.
      + rewrite E0; auto.
  Qed.
  (** all legs known *)
  Lemma add_node_known x es t op n legs mut :
    ~ In x (keys (nodes n)) ->
    (es = Some legs /\ mut = true \/
     es = None /\ mut = false /\ exists sh, pshape t = Some sh /\ legs = range_names (length sh)) ->
    pshape t = Some (map (edim n) legs) -> ~ In NN legs -> incl legs (keys (edges n)) ->
    add_node x es t op n = (plus_node' n x legs mut t op, Ok x).
  Proof.
    intros Nx Hes Sh NN' I.
    transitivity (plus_node' (with_edges n (edges n)) x legs mut t op, Ok x); [|rewrite with_edges_same; auto].
    apply add_node_grow; auto.
    - intros n0 E0. rewrite Sh, <- E0, with_edges_same. unfold enum.
      apply (@add_legs_same T (map (edim n) legs) legs n0 [] []); auto.
      + simpl. rewrite app_nil_r. unfold edim. rewrite E0; auto.
      + rewrite E0; auto.
  Qed.
End Grow.
