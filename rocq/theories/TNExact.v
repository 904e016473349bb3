(** Exact results of add_node when the legs are already registered with matching dimensions. *)
From Verif Require Import Base Scalar NetSpec Sums NetAlg ModelTN TNInv TNOps TNSpec TNMerge TNDelta TNValue TNValue2.
Set Implicit Arguments.

Lemma set_same {A B} `{Eqb A} (k : A) (v : B) l : get k l = Some v -> set k v l = l.
Proof.
  induction l as [|[a b] r IH]; simpl; [discriminate|]. destruct (eqb_spec k a) as [->|N].
  - intros Q; inversion Q; auto.
  - intros Q. f_equal; auto.
Qed.

Section Exact.
  Context {T : Type} `{PT : Payload T}.
  Notation net := (tn T).
  Implicit Types (n : net) (x e m : name).

  Lemma mbind_eq {A B} (m : M A) (f : A -> M B) n n1 a :
    m n = (n1, Ok a) -> mbind m f n = f a n1.
  Proof. intros E. unfold mbind. rewrite E. reflexivity. Qed.

  Definition edim n e : option nat := match get e (edges n) with Some ed => e_dim ed | None => None end.

  Lemma update_dim1_same e n d :
    In e (keys (edges n)) -> (d = None \/ d = edim n e) -> update_dim1 e d n = (n, Ok tt).
  Proof.
    intros I Hd. unfold update_dim1, edim in *. cbv [mbind getst].
    destruct (key_get _ _ I) as [ed G]. rewrite G in *. destruct ed as [ed fx]; simpl in *.
    destruct ed as [z|].
    - destruct Hd; subst; [reflexivity|]. rewrite Nat.eqb_refl. reflexivity.
    - assert (d = None) by tauto. subst. cbv [modify]. rewrite set_same; auto. destruct n; auto.
  Qed.
  Lemma update_dimension_same dic n :
    (forall e d, In (e, d) dic -> In e (keys (edges n)) /\ (d = None \/ d = edim n e)) ->
    update_dimension dic n = (n, Ok tt).
  Proof.
    unfold update_dimension. induction dic as [|[e d] r IH]; intros Hd; [reflexivity|].
    cbn [foreach]. unfold mbind. simpl. destruct (Hd e d) as [I Q]; [simpl; auto|].
    rewrite update_dim1_same by auto. apply IH. intros; apply Hd; simpl; auto.
  Qed.
  Lemma add_edge_same e d n :
    In e (keys (edges n)) -> e <> NN -> (d = None \/ d = edim n e) -> add_edge e d n = (n, Ok e).
  Proof.
    intros I Ne Hd. unfold add_edge. cbv [mbind getst]. pose proof (proj2 (has_In _ _) I) as Hs.
    assert (Q : (match d with None => ret tt | Some _ => update_dimension [(e, d)] end) n = (n, Ok tt)).
    { destruct d; [|reflexivity]. apply update_dimension_same. intros a b [Q|[]].
      inversion Q; subst; auto. }
    destruct e; [congruence|..]; cbn [ret]; rewrite Hs, Q; reflexivity.
  Qed.
  Lemma add_edge_fresh e d n :
    ~ In e (keys (edges n)) -> e <> NN ->
    add_edge e d n = (with_edges n (edges n ++ [(e, Edge d None)]), Ok e).
  Proof.
    intros I Ne. unfold add_edge. cbv [mbind getst].
    assert (Hs : has e (edges n) = false).
    { destruct (has e (edges n)) eqn:Q; auto. apply has_In in Q; tauto. }
    destruct e; [congruence|..]; cbn [ret]; rewrite Hs; reflexivity.
  Qed.

  Lemma nth_error_app2' {A} (l m : list A) a : nth_error (l ++ a :: m) (length l) = Some a.
  Proof. rewrite nth_error_app2, Nat.sub_diag; auto. Qed.

  Lemma add_legs_same sh legs n : forall pre rest,
    sh = pre ++ map (edim n) legs ++ rest ->
    incl legs (keys (edges n)) -> ~ In NN legs ->
    foreach (add_leg (Some sh)) (combine (seq (length pre) (length legs)) legs) n = (n, Ok tt).
  Proof.
    induction legs as [|e r IH]; intros pre rest Esh Hi Hn; [reflexivity|].
    cbn [combine seq length foreach]. unfold mbind, add_leg at 1. cbn [fst snd].
    assert (Q : nth_error sh (length pre) = Some (edim n e)).
    { rewrite Esh. simpl. apply nth_error_app2'. }
    rewrite Q. unfold mbind. rewrite add_edge_same.
    - change (ret tt n) with (n, Ok tt : res unit). cbn iota beta.
      replace (Datatypes.S (length pre)) with (length (pre ++ [edim n e])) by (rewrite app_length; simpl; lia).
      apply (IH (pre ++ [edim n e]) rest).
      + rewrite Esh. rewrite <- !app_assoc. reflexivity.
      + intros a Ia; apply Hi; simpl; auto.
      + simpl in Hn; tauto.
    - apply Hi; simpl; auto.
    - simpl in Hn; intros ->; tauto.
    - auto.
  Qed.

  Lemma dict_of_In {B} (l : list (name * B)) : forall acc e d,
    In (e, d) (dict_of l acc) -> In (e, d) l \/ In (e, d) acc.
  Proof.
    induction l as [|[k v] r IH]; intros acc e d I; simpl in *; auto.
    apply IH in I as [I|I]; auto.
    assert (X : forall q, In (e, d) (set k v q) -> (e, d) = (k, v) \/ In (e, d) q).
    { induction q as [|[a b] q IHq]; simpl.
      - intros [Q|[]]; auto.
      - destruct (eqb_spec k a) as [->|]; simpl; intros [Q|Q]; auto.
        apply IHq in Q as [?|?]; auto. }
    apply X in I as [I|I]; auto.
  Qed.

  Lemma update_node_same x t nd n :
    get x (nodes n) = Some nd -> incl (n_legs nd) (keys (edges n)) ->
    pshape t = Some (map (edim n) (n_legs nd)) ->
    update_node x t n = (with_nodes n (set x (Node (n_legs nd) (n_mut nd) (Some t)) (nodes n)), Ok tt).
  Proof.
    intros G I Sh. unfold update_node. cbv [mbind getst]. rewrite G, Sh. cbn [modify].
    rewrite map_length, Nat.leb_refl.
    set (n1 := with_nodes n _). change (map (edim n) (n_legs nd)) with (map (edim n1) (n_legs nd)).
    rewrite update_dimension_same; auto.
    intros e d Q. apply dict_of_In in Q as [Q|[]].
    assert (Hc : forall l, In (e, d) (combine l (map (edim n1) l)) -> In e l /\ d = edim n1 e).
    { induction l as [|a r IH]; simpl; [tauto|]. intros [Q'|Q']; [inversion Q'; auto|].
      apply IH in Q'. tauto. }
    apply Hc in Q as [Q1 Q2]. split; auto.
  Qed.

  Lemma open_edges_same es n : incl es (keys (edges n)) ->
    foreach (fun e => open_edge e None) es n = (with_opens n (opens n ++ es), Ok tt).
  Proof.
    revert n; induction es as [|e r IH]; intros n I.
    - simpl. rewrite app_nil_r. destruct n; reflexivity.
    - cbn [foreach].
      assert (Q : has e (edges n) = true) by (apply has_In, I; simpl; auto).
      rewrite (@mbind_eq _ _ _ _ n (with_opens n (opens n ++ [e])) tt).
      + rewrite IH; [|intros a Ia; apply (I a); simpl; auto]. simpl. rewrite <- app_assoc. reflexivity.
      + unfold open_edge. cbv [mbind getst]. rewrite Q. reflexivity.
  Qed.

  (** the network with one more node *)
  Definition plus_node n x legs (t : T) (op : bool) : net :=
    TN (nodes n ++ [(x, Node legs true (Some t))]) (edges n)
       (add_adjs (adj n) (map (fun e => (x, e)) legs))
       (opens n ++ (if op then legs else [])) (idc n).

  Lemma add_node_typed x legs t op n :
    ~ In x (keys (nodes n)) -> incl legs (keys (edges n)) -> ~ In NN legs ->
    pshape t = Some (map (edim n) legs) ->
    add_node x (Some legs) t op n = (plus_node n x legs t op, Ok x).
  Proof.
    intros Nx I NL Sh. unfold add_node.
    assert (Hx : has x (nodes n) = false).
    { destruct (has x (nodes n)) eqn:Q; auto. apply has_In in Q; tauto. }
    rewrite (@mbind_eq _ _ getst _ n n n eq_refl), Hx.
    rewrite (@mbind_eq _ _ (ret _) _ n n (legs, true) eq_refl).
    set (n0 := with_nodes n (nodes n ++ [(x, Node legs true None)])).
    rewrite (@mbind_eq _ _ _ _ n n0 tt) by reflexivity.
    rewrite (@mbind_eq _ _ _ _ n0 n0 tt).
    2:{ rewrite Sh. unfold enum. apply (@add_legs_same (map (edim n) legs) legs n0 [] []); auto.
        simpl. rewrite app_nil_r. reflexivity. }
    set (n1 := with_adj n0 (add_adjs (adj n0) (map (fun e => (x, e)) legs))).
    rewrite (@mbind_eq _ _ _ _ n0 n1 tt).
    2:{ unfold modify. rewrite graph_connect_known by exact I. reflexivity. }
    set (n2 := with_nodes n1 (nodes n ++ [(x, Node legs true (Some t))])).
    rewrite (@mbind_eq _ _ _ _ n1 n2 tt).
    2:{ rewrite (@update_node_same x t (Node legs true None) n1); auto.
        - simpl n_legs. simpl n_mut. unfold n1, n0. simpl nodes. rewrite set_snoc by auto. reflexivity.
        - unfold n1, n0. simpl. rewrite get_snoc, eqb_refl; auto. }
    rewrite (@mbind_eq _ _ _ _ n2 (plus_node n x legs t op) tt); [reflexivity|].
    destruct op.
    - rewrite open_edges_same by exact I. reflexivity.
    - unfold plus_node, n2. simpl. rewrite app_nil_r. destruct n; reflexivity.
  Qed.

  (** the same with one new edge among the legs *)
  Definition plus_edge n e (d : option nat) : net := with_edges n (edges n ++ [(e, Edge d None)]).

  Lemma edim_plus n e d a : ~ In e (keys (edges n)) ->
    edim (plus_edge n e d) a = if eqb a e then d else edim n a.
  Proof.
    intros N. unfold edim, plus_edge. simpl. rewrite get_snoc by auto. destruct (eqb a e); auto.
  Qed.

  Lemma add_node_eye x e e' d t n :
    ~ In x (keys (nodes n)) -> In e (keys (edges n)) -> edim n e = Some d ->
    ~ In e' (keys (edges n)) -> e <> NN -> e' <> NN ->
    pshape t = Some [Some d; Some d] ->
    add_node x (Some [e; e']) t false n =
    (plus_node (plus_edge n e' (Some d)) x [e; e'] t false, Ok x).
  Proof.
    intros Nx I De I' Ne Ne' Sh.
    assert (Nee : e <> e') by (intros ->; tauto).
    rewrite <- (@add_node_typed x [e; e'] t false (plus_edge n e' (Some d))).
    2:{ exact Nx. }
    2:{ unfold plus_edge. simpl. rewrite keys_app. intros a [<-|[<-|[]]]; apply in_app_iff; simpl; auto. }
    2:{ simpl. intuition congruence. }
    2:{ simpl. rewrite !edim_plus by auto. rewrite eqb_refl, (proj2 (eqb_neq _ _) Nee), De. auto. }
    unfold add_node.
    assert (Hx : has x (nodes n) = false).
    { destruct (has x (nodes n)) eqn:Q; auto. apply has_In in Q; tauto. }
    set (n' := plus_edge n e' (Some d)).
    rewrite (@mbind_eq _ _ getst _ n n n eq_refl), (@mbind_eq _ _ getst _ n' n' n' eq_refl).
    change (nodes n') with (nodes n). rewrite Hx.
    rewrite (@mbind_eq _ _ (ret _) _ n n ([e; e'], true) eq_refl),
      (@mbind_eq _ _ (ret _) _ n' n' ([e; e'], true) eq_refl).
    set (n0 := with_nodes n (nodes n ++ [(x, Node [e; e'] true None)])).
    set (n0' := with_nodes n' (nodes n ++ [(x, Node [e; e'] true None)])).
    rewrite (@mbind_eq _ _ _ _ n n0 tt) by reflexivity.
    rewrite (@mbind_eq _ _ _ _ n' n0' tt) by reflexivity.
    assert (E1 : foreach (add_leg (pshape t)) (enum [e; e']) n0 = (n0', Ok tt)).
    { rewrite Sh. unfold enum. cbn [length seq combine foreach].
      rewrite (@mbind_eq _ _ _ _ n0 n0 tt), (@mbind_eq _ _ _ _ n0 n0' tt); auto.
      - unfold add_leg. cbn [fst snd nth_error]. rewrite (@mbind_eq _ _ _ _ n0 n0' e'); auto.
        rewrite add_edge_fresh; auto.
      - unfold add_leg. cbn [fst snd nth_error]. rewrite (@mbind_eq _ _ _ _ n0 n0 e); auto.
        rewrite add_edge_same; auto. }
    assert (E2 : foreach (add_leg (pshape t)) (enum [e; e']) n0' = (n0', Ok tt)).
    { rewrite Sh. unfold enum. apply (@add_legs_same [Some d; Some d] [e; e'] n0' [] []).
      - change (edim n0') with (edim (plus_edge n e' (Some d))). simpl.
        rewrite !edim_plus by auto. rewrite eqb_refl, (proj2 (eqb_neq _ _) Nee), De. auto.
      - simpl. rewrite keys_app. intros a [<-|[<-|[]]]; apply in_app_iff; simpl; auto.
      - simpl. intuition congruence. }
    rewrite (@mbind_eq _ _ _ _ _ _ _ E1), (@mbind_eq _ _ _ _ _ _ _ E2). reflexivity.
  Qed.
End Exact.
