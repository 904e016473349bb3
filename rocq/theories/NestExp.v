(** Expanding the nodes that hold networks. *)
From Verif Require Import Base Scalar NetSpec Sums NetAlg ModelArray ModelTN TNInv TNOps TNSpec TNMerge TNDelta TNValue
  TNValue2 TNExact ModelVal OpsProofs ModelNest NestSpec NestSub NestEnc NestJoin.
Set Implicit Arguments.

(** ** adding entries under fresh names *)
Lemma set_fresh {B} k (v : B) (l : list (name * B)) : ~ In k (keys l) -> set k v l = l ++ [(k, v)].
Proof.
  induction l as [|[a b] r IH]; simpl; intros N; auto. destruct (eqb_spec k a) as [->|NE]; [tauto|]. rewrite IH; tauto.
Qed.
Lemma fold_put_node {S : scalar} (l : list (name * node (tval S))) : forall l0, NoDup (keys l) ->
  (forall x, In x (keys l) -> ~ In x (keys l0)) -> fold_left (@put_node S) l l0 = l0 ++ l.
Proof.
  induction l as [|[k v] l IH]; intros l0 ND D; simpl; [rewrite app_nil_r; auto|]. inversion ND; subst.
  unfold put_node at 2. simpl. rewrite set_fresh by (apply D; simpl; auto). rewrite IH; auto.
  - rewrite <- app_assoc. auto.
  - intros x Ix. rewrite keys_app, in_app_iff. intros [J|[<-|[]]]; [|auto]. apply (D x); simpl; auto.
Qed.
Lemma fold_put_edge (l : list (name * edge)) : forall l0, NoDup (keys l) ->
  (forall x, In x (keys l) -> ~ In x (keys l0)) -> fold_left put_edge l l0 = l0 ++ l.
Proof.
  induction l as [|[k v] l IH]; intros l0 ND D; simpl; [rewrite app_nil_r; auto|]. inversion ND; subst.
  unfold put_edge at 2. simpl. assert (F : ~ In k (keys l0)) by (apply D; simpl; auto).
  rewrite (proj2 (get_None _ _) F). simpl. rewrite set_fresh by auto. rewrite IH; auto.
  - rewrite <- app_assoc. auto.
  - intros x Ix. rewrite keys_app, in_app_iff. intros [J|[<-|[]]]; [|auto]. apply (D x); simpl; auto.
Qed.
Definition inj_on (f : name -> name) (l : list name) : Prop := forall a b, In a l -> In b l -> f a = f b -> a = b.
Lemma inj_on_NoDup f l : inj_on f l -> NoDup l -> NoDup (map f l).
Proof.
  induction l as [|a l IH]; simpl; intros I ND; constructor; inversion ND; subst.
  - intros J. apply in_map_iff in J as (b & E & Ib). apply I in E; simpl; auto. subst; auto.
  - apply IH; auto. intros b c Ib Ic. apply I; simpl; auto.
Qed.
Section Renamed.
  Context {B C : Type}.
  Variables (f : name -> name) (g : B -> C).
  Notation ren := (map (fun p : name * B => (f (fst p), g (snd p)))).
  Lemma keys_ren l : keys (ren l) = map f (keys l).
  Proof. unfold keys. rewrite !map_map. auto. Qed.
  Lemma get_ren l k : inj_on f (keys l) -> In k (keys l) -> get (f k) (ren l) = option_map g (get k l).
  Proof.
    induction l as [|[a b] l IH]; simpl; intros I Ik; [tauto|]. destruct (eqb_spec k a) as [->|Nk].
    - rewrite eqb_refl. auto.
    - destruct Ik as [->|Ik]; [tauto|]. destruct (eqb_spec (f k) (f a)) as [Q|Q].
      + apply I in Q; simpl; auto. tauto.
      + apply IH; auto. intros c d Ic Id. apply I; simpl; auto.
  Qed.
  Lemma get_ren_inv l k v : inj_on f (keys l) -> get k (ren l) = Some v ->
    exists a b, k = f a /\ get a l = Some b /\ v = g b.
  Proof.
    intros I G. assert (Ik : In k (keys (ren l))) by (eapply get_Some_key; eauto).
    rewrite keys_ren in Ik. apply in_map_iff in Ik as (a & <- & Ia). rewrite get_ren in G by auto.
    destruct (get a l) as [b|] eqn:Q; [|discriminate]. injection G as <-. eauto.
  Qed.
End Renamed.

Section Rename.
  Context {S : scalar}.
  Notation tval := (tval S).
  Notation net := (tn tval).
  Notation pv := (@tval_value S).
  Notation value := (tn_value pv).
  Implicit Types (n m : net) (e x : name).
  Open Scope K_scope.
  Add Ring KringNX : (kring S).

  Section One.
    Variables (att : name) (n : net).
    Let f := comb_name att.
    Hypothesis R : regular n.
    Hypothesis In_ : inj_on f (keys (nodes n)).
    Hypothesis Ie_ : inj_on f (keys (edges n)).
    Let n' := add_attribute att n.

    Lemma attr_nodes : nodes n' = map (fun p => (f (fst p), Node (map f (n_legs (snd p))) true (n_val (snd p)))) (nodes n).
    Proof.
      unfold n', add_attribute. cbn [nodes]. rewrite fold_put_node; auto. rewrite (keys_ren f (fun nd : node tval => Node (map f (n_legs nd)) true (n_val nd))).
      apply inj_on_NoDup; auto. apply R.
    Qed.
    Lemma attr_edges : edges n' = map (fun p => (f (fst p), (fun ed => ed) (snd p))) (edges n).
    Proof.
      unfold n', add_attribute. cbn [edges]. rewrite fold_put_edge; auto. rewrite (keys_ren f (fun ed : edge => ed)).
      apply inj_on_NoDup; auto. apply R.
    Qed.
    Lemma attr_keys_nodes : keys (nodes n') = map f (keys (nodes n)).
    Proof. rewrite attr_nodes. apply (keys_ren f (fun nd : node tval => Node (map f (n_legs nd)) true (n_val nd))). Qed.
    Lemma attr_keys_edges : keys (edges n') = map f (keys (edges n)).
    Proof. rewrite attr_edges. apply (keys_ren f (fun ed : edge => ed)). Qed.
    Lemma attr_get_node x : In x (keys (nodes n)) ->
      get (f x) (nodes n') = option_map (fun nd => Node (map f (n_legs nd)) true (n_val nd)) (get x (nodes n)).
    Proof. intros I. rewrite attr_nodes. apply (@get_ren _ _ f (fun nd : node tval => Node (map f (n_legs nd)) true (n_val nd))); auto. Qed.
    Lemma attr_node_inv y nd' : get y (nodes n') = Some nd' ->
      exists x nd, y = f x /\ get x (nodes n) = Some nd /\ nd' = Node (map f (n_legs nd)) true (n_val nd).
    Proof. rewrite attr_nodes. apply (@get_ren_inv _ _ f (fun nd : node tval => Node (map f (n_legs nd)) true (n_val nd))); auto. Qed.
    Lemma attr_get_edge e : In e (keys (edges n)) -> get (f e) (edges n') = get e (edges n).
    Proof. intros I. rewrite attr_edges, (@get_ren _ _ f (fun ed : edge => ed)); auto. destruct (get e (edges n)); auto. Qed.
    Lemma attr_edge_inv e' ed : get e' (edges n') = Some ed -> exists e, e' = f e /\ get e (edges n) = Some ed.
    Proof. rewrite attr_edges. intros G. apply (@get_ren_inv _ _ f (fun ed : edge => ed)) in G as (a & b & E & Q & ->); auto. eauto. Qed.
    Lemma attr_edim e : In e (keys (edges n)) -> edim n' (f e) = edim n e.
    Proof. intros I. unfold edim. rewrite attr_get_edge; auto. Qed.
    Lemma attr_regular : regular n'.
    Proof.
      destruct R as [[W NNn] FN Sz Os]. constructor.
      - split; [constructor|].
        + rewrite attr_keys_nodes. apply inj_on_NoDup; auto. apply W.
        + rewrite attr_keys_edges. apply inj_on_NoDup; auto. apply W.
        + intros y nd' e' G J. apply attr_node_inv in G as (x & nd & -> & G & ->). simpl in J.
          apply in_map_iff in J as (e & <- & J). rewrite attr_keys_edges. apply in_map. eapply (wf_legs W); eauto.
        + intros y e'. unfold n', add_attribute at 1. cbn [adj]. rewrite add_adjs_In. split.
          * intros [[]|J]. apply in_map_iff in J as ([x e] & Q & J). simpl in Q. injection Q as <- <-.
            apply (wf_adj W) in J as (nd & G & J). fold f.
            exists (Node (map f (n_legs nd)) true (n_val nd)). split; [|simpl; apply in_map; auto].
            rewrite attr_get_node, G; auto. eapply get_Some_key; eauto.
          * intros (nd' & G & J). apply attr_node_inv in G as (x & nd & -> & G & ->). simpl in J. apply in_map_iff in J as (e & <- & J).
            right. apply in_map_iff. exists (x, e). split; auto. apply (wf_adj W). eauto.
        + unfold n', add_attribute. cbn [adj]. apply add_adjs_NoDup. constructor.
        + intros e' J. unfold n', add_attribute in J. cbn [opens] in J. apply in_map_iff in J as (e & <- & J).
          rewrite attr_keys_edges. apply in_map, (wf_opens W); auto.
        + intros e' ed fx G. apply attr_edge_inv in G as (e & -> & G). eapply (wf_fix W); eauto.
        + rewrite attr_keys_edges. intros J. apply in_map_iff in J as (e & Q & _). discriminate.
      - intros e' ed fx G. apply attr_edge_inv in G as (e & -> & G). eapply FN; eauto.
      - intros y nd' G. apply attr_node_inv in G as (x & nd & -> & G & ->). destruct (Sz x nd G) as (t & Et & Sh & Kn).
        assert (De : forall e, In e (n_legs nd) -> edim n' (f e) = edim n e).
        { intros e Ie. apply attr_edim. eapply (wf_legs W); eauto. }
        exists t. simpl. split; auto. split.
        + rewrite Sh, map_map. f_equal. apply map_ext_in. intros e Ie. symmetry. auto.
        + intros e Ie. apply in_map_iff in Ie as (a & <- & Ia). rewrite De; auto.
      - intros e' J. unfold n', add_attribute in J. cbn [opens] in J. apply in_map_iff in J as (e & <- & J). fold f.
        rewrite attr_edim; auto. apply (wf_opens W); auto.
    Qed.
    Lemma attr_value o : value n' o = value n o.
    Proof.
      symmetry. unfold tn_value. etransitivity; [apply (net_value_relabel f)|].
      2:{ symmetry. f_equal.
        + unfold tn_dom, relabel_dom. rewrite attr_edges, !map_map. auto.
        + unfold tn_terms. rewrite attr_nodes, !map_map. apply map_ext. intros [x nd]. reflexivity. }
      - assert (I : forall a, In a (keys (tn_dom n) ++ labels (tn_terms pv n) ++ opens n) -> In a (keys (edges n))).
        { intros a. rewrite keys_tn_dom, !in_app_iff. intros [J|[J|J]]; auto.
          - apply labels_In in J as (t & It & J). unfold tn_terms in It. apply in_map_iff in It as ([x nd] & <- & It). simpl in J.
            assert (G : get x (nodes n) = Some nd) by (apply In_get; auto; apply R).
            eapply (wf_legs (proj1 (rg_inv R))); eauto.
          - apply (wf_opens (proj1 (rg_inv R))); auto. }
        intros a b Ia Ib. apply Ie_; auto.
    Qed.
    Lemma attr_shape : map (edim n') (opens n') = map (edim n) (opens n).
    Proof.
      unfold n' at 2, add_attribute. cbn [opens]. rewrite map_map. apply map_ext_in. intros e Ie. apply attr_edim.
      apply (wf_opens (proj1 (rg_inv R))); auto.
    Qed.
  End One.
End Rename.

Section Union.
  Context {S : scalar}.
  Notation tval := (tval S).
  Notation net := (tn tval).
  Notation pv := (@tval_value S).
  Notation value := (tn_value pv).
  Implicit Types (e y : name).
  Open Scope K_scope.
  Add Ring KringNU : (kring S).
  Variables (n m : net) (x : name) (nd : node tval) (t : tval).
  Hypothesis R : regular n.
  Hypothesis Rm : regular m.
  Hypothesis G : get x (nodes n) = Some nd.
  Hypothesis Vt : n_val nd = Some t.
  Hypothesis Dn : forall y, In y (keys (nodes m)) -> In y (keys (nodes n)) -> y = x.
  Hypothesis De : forall e, In e (keys (edges m)) -> ~ In e (keys (edges n)).
  Let n0 := graph_del_node n x.
  Let n1 := graph_union n0 m.

  Lemma un_nodes : nodes n1 = del x (nodes n) ++ nodes m.
  Proof.
    unfold n1, graph_union, n0, graph_del_node. cbn [nodes with_adj with_nodes]. apply fold_put_node; [apply Rm|].
    intros y I J. apply keys_del_In in J as [J Ny]. auto.
  Qed.
  Lemma un_edges : edges n1 = edges n ++ edges m.
  Proof. unfold n1, graph_union, n0, graph_del_node. cbn [edges with_adj with_nodes]. apply fold_put_edge; [apply Rm|auto]. Qed.
  Lemma un_get_old y : y <> x -> In y (keys (nodes n)) -> get y (nodes n1) = get y (nodes n).
  Proof.
    intros Ny Iy. rewrite un_nodes, get_app, get_del_neq by auto. destruct (get y (nodes n)) eqn:Q; auto.
    apply get_None in Q. tauto.
  Qed.
  Lemma un_get_new y : In y (keys (nodes m)) -> get y (nodes n1) = get y (nodes m).
  Proof.
    intros Iy. rewrite un_nodes, get_app. destruct (get y (del x (nodes n))) eqn:Q; auto.
    apply get_Some_key, keys_del_In in Q as [Q Ny]. exfalso. auto.
  Qed.
  Lemma un_node_inv y nd' : get y (nodes n1) = Some nd' ->
    (y <> x /\ get y (nodes n) = Some nd') \/ get y (nodes m) = Some nd'.
  Proof.
    rewrite un_nodes, get_app. destruct (eq_dec_of_eqb y x) as [->|Ny].
    - rewrite get_del_eq; auto.
    - rewrite get_del_neq by auto. destruct (get y (nodes n)); auto.
  Qed.
  Lemma un_edim_old e : In e (keys (edges n)) -> edim n1 e = edim n e.
  Proof. intros I. unfold edim. rewrite un_edges, get_app. apply key_get in I as (ed & ->). auto. Qed.
  Lemma un_edim_new e : In e (keys (edges m)) -> edim n1 e = edim m e.
  Proof.
    intros I. unfold edim. rewrite un_edges, get_app. destruct (get e (edges n)) eqn:Q; auto.
    apply get_Some_key in Q. destruct (De _ I Q).
  Qed.
  Lemma un_regular : regular n1.
  Proof.
    destruct R as [[W NNn] FN Sz Os], Rm as [[Wm NNm] FNm Szm Osm].
    constructor.
    - split; [constructor|].
      + rewrite un_nodes, keys_app. apply NoDup_app_iff. split; [apply keys_del_NoDup, W|]. split; [apply Wm|].
        intros y I J. apply keys_del_In in I as [I Ny]. apply Ny. auto.
      + rewrite un_edges, keys_app. apply NoDup_app_iff. split; [apply W|]. split; [apply Wm|]. intros e I J. apply (De _ J I).
      + intros y nd' e Gy J. rewrite un_edges, keys_app, in_app_iff. apply un_node_inv in Gy as [[_ Gy]|Gy].
        * left. eapply (wf_legs W); eauto.
        * right. eapply (wf_legs Wm); eauto.
      + intros y e. unfold n1, graph_union. cbn [adj]. rewrite add_adjs_In. unfold n0, graph_del_node at 1. cbn [adj with_adj with_nodes].
        rewrite filter_In. cbn [fst]. rewrite negb_true_iff. split.
        * intros [[J Ny]|J].
          -- apply (wf_adj W) in J as (nd' & Gy & J). exists nd'. split; auto. fold n0 n1. rewrite un_get_old; auto.
             { intros ->. rewrite eqb_refl in Ny. discriminate. } { eapply get_Some_key; eauto. }
          -- apply (wf_adj Wm) in J as (nd' & Gy & J). exists nd'. split; auto. fold n0 n1. rewrite un_get_new; auto. eapply get_Some_key; eauto.
        * intros (nd' & Gy & J). apply un_node_inv in Gy as [[Ny Gy]|Gy].
          -- left. split; [apply (wf_adj W); eauto|]. apply eqb_neq. congruence.
          -- right. apply (wf_adj Wm). eauto.
      + unfold n1, graph_union. cbn [adj]. apply add_adjs_NoDup. unfold n0, graph_del_node. cbn [adj with_adj with_nodes]. apply NoDup_filter, W.
      + intros e J. rewrite un_edges, keys_app, in_app_iff. left. apply (wf_opens W). exact J.
      + intros e ed fx Ge. rewrite un_edges, get_app in Ge. destruct (get e (edges n)) eqn:Q.
        * injection Ge as <-. eapply (wf_fix W); eauto.
        * eapply (wf_fix Wm); eauto.
      + rewrite un_edges, keys_app, in_app_iff. tauto.
    - intros e ed fx Ge. rewrite un_edges, get_app in Ge. destruct (get e (edges n)) eqn:Q.
      + injection Ge as <-. eapply FN; eauto.
      + eapply FNm; eauto.
    - intros y nd' Gy. apply un_node_inv in Gy as [[Ny Gy]|Gy].
      + destruct (Sz y nd' Gy) as (u & A & B & C).
        assert (Q : forall e, In e (n_legs nd') -> edim n1 e = edim n e) by (intros e Ie; apply un_edim_old; eapply (wf_legs W); eauto).
        exists u. split; auto. split; [|intros e Ie; rewrite Q; auto]. rewrite B. f_equal. apply map_ext_in. intros e Ie. symmetry; auto.
      + destruct (Szm y nd' Gy) as (u & A & B & C).
        assert (Q : forall e, In e (n_legs nd') -> edim n1 e = edim m e) by (intros e Ie; apply un_edim_new; eapply (wf_legs Wm); eauto).
        exists u. split; auto. split; [|intros e Ie; rewrite Q; auto]. rewrite B. f_equal. apply map_ext_in. intros e Ie. symmetry; auto.
    - intros e J. change (opens n1) with (opens n) in J. rewrite un_edim_old by (apply (wf_opens W); auto). auto.
  Qed.

  Lemma un_value o : (forall q, pv t q = value m q) ->
    esum (tn_dom n1) (fun s => kdelta (eqb (map s (n_legs nd)) (map s (opens m))) * summand pv n1 o s) env0 = value n o.
  Proof.
    intros Hm. destruct R as [[W NNn] _ _ _], Rm as [[Wm _] _ _ _].
    assert (Ed : tn_dom n1 = tn_dom n ++ tn_dom m) by (unfold tn_dom; rewrite un_edges, map_app; auto).
    rewrite Ed, esum_app, value_summand. apply esum_ext_all. intros s.
    assert (Out : forall s2, ranges (tn_dom m) s s2 -> forall e, In e (keys (edges n)) -> s2 e = s e).
    { intros s2 [_ Q] e Ie. apply Q. rewrite keys_tn_dom. intros J. apply (De _ J Ie). }
    set (T0 := map (node_term pv) (del x (nodes n))).
    assert (PT : Permutation (tn_terms pv n) (node_term pv (x, nd) :: T0)).
    { unfold tn_terms, T0. change (node_term pv (x, nd) :: map (node_term pv) (del x (nodes n)))
        with (map (node_term pv) ((x, nd) :: del x (nodes n))). apply Permutation_map, perm_get_front; auto. apply W. }
    assert (T0s : forall s2, ranges (tn_dom m) s s2 -> prodf (term_at s2) T0 = prodf (term_at s) T0).
    { intros s2 Q. apply prodf_ext. intros tm It. apply in_map_iff in It as ([y nd'] & <- & It). unfold term_at. f_equal.
      apply map_ext_in. intros e Ie. apply Out; auto. simpl in Ie.
      assert (Gy : get y (del x (nodes n)) = Some nd') by (apply In_get; auto; apply keys_del_NoDup, W).
      destruct (eq_dec_of_eqb y x) as [->|Ny]; [rewrite get_del_eq in Gy; discriminate|]. rewrite get_del_neq in Gy by auto.
      eapply (wf_legs W); eauto. }
    transitivity (esum (tn_dom m) (fun s2 => (kdelta (eqb (map s (opens n)) o) * prodf (term_at s) T0) * summand pv m (map s (n_legs nd)) s2) s).
    - apply esum_ext; [rewrite keys_tn_dom; apply Wm|]. intros s2 Q. unfold summand.
      assert (Et : tn_terms pv n1 = T0 ++ tn_terms pv m) by (unfold tn_terms; rewrite un_nodes, map_app; auto).
      rewrite Et, prodf_app, (T0s s2 Q). change (opens n1) with (opens n).
      rewrite (map_ext_in s2 s (opens n)) by (intros e Ie; apply Out; auto; apply (wf_opens W); auto).
      rewrite (map_ext_in s2 s (n_legs nd)) by (intros e Ie; apply Out; auto; eapply (wf_legs W); eauto).
      rewrite (eqb_sym (map s (n_legs nd))). ring.
    - rewrite esum_scale. rewrite (@esum_start_dep _ _ _ (tn_dom m) (keys (edges m)) _ s env0).
      + rewrite <- value_summand, <- Hm. unfold summand. rewrite (prodf_perm _ PT). cbn [prodf]. unfold term_at at 2. simpl. rewrite Vt.
        simpl. ring.
      + intros s1 s2 E. unfold summand.
        rewrite (map_ext_in s1 s2 (opens m)) by (intros e Ie; apply E, (wf_opens Wm); auto). f_equal. apply prodf_ext.
        intros tm It. unfold tn_terms in It. apply in_map_iff in It as ([y nd'] & <- & It). unfold term_at. f_equal.
        apply map_ext_in. intros e Ie. apply E. eapply (wf_legs Wm); [apply In_get; [apply Wm|exact It]|exact Ie].
      + intros a Ia Na. rewrite keys_tn_dom in Na. tauto.
  Qed.
End Union.

(** ** one round of expand *)
Lemma tup_comb a b : tup (comb_name a b) = tup a ++ tup b.
Proof. reflexivity. Qed.
Lemma starts_comb x y : starts x (comb_name x y).
Proof. exists (tup y). apply tup_comb. Qed.
Lemma app_split_prefix {X} (a b c d : list X) : a ++ b = c ++ d -> (exists r, c = a ++ r) \/ (exists r, a = c ++ r).
Proof.
  revert c. induction a as [|u a IH]; intros [|v c] E; simpl in *; eauto.
  injection E as <- E. destruct (IH c E) as [(r & ->)|(r & ->)]; eauto.
Qed.
Lemma wires_ok conn os : length conn = length os -> wires conn os = Ok (combine conn os).
Proof.
  revert conn. induction os as [|o os IH]; intros [|c conn] L; simpl in *; try discriminate; auto. rewrite IH by lia. auto.
Qed.
Lemma combine_same {X} (h : name -> X) conn os : length conn = length os ->
  (forall p, In p (combine conn os) -> h (fst p) = h (snd p)) <-> map h conn = map h os.
Proof.
  revert os. induction conn as [|c conn IH]; intros [|o os] L; simpl in *; try discriminate; [tauto|].
  injection L as L. specialize (IH os L). split.
  - intros H. f_equal; [apply (H (c, o)); auto|]. apply IH. auto.
  - intros H p [<-|I]; injection H as H1 H2; auto. apply IH; auto.
Qed.

Lemma name_lt_refl a : a <> NN -> exists r, name_lt a a = Ok r.
Proof.
  destruct a as [|z|q|l]; intros N; [tauto|simpl; eauto|simpl; eauto|]. exists false. simpl. clear N.
  induction l as [|b l IH]; auto. rewrite eqb_refl. auto.
Qed.
Lemma keys_combine {X} (a : list name) (b : list X) : length a = length b -> keys (combine a b) = a.
Proof. revert b. induction a as [|u a IH]; intros [|v b] L; simpl in *; try discriminate; auto. f_equal. apply IH. lia. Qed.
Lemma in_combine_swap {X Y} (a : list X) (b : list Y) u v : In (u, v) (combine a b) -> In (v, u) (combine b a).
Proof. revert b. induction a as [|c a IH]; intros [|d b]; simpl; try tauto. intros [Q|I]; [injection Q as <- <-|]; auto. Qed.

Section Round.
  Context {S : scalar}.
  Notation tval := (tval S).
  Notation net := (tn tval).
  Notation pv := (@tval_value S).
  Notation value := (tn_value pv).
  Implicit Types (n m : net) (e x y : name).
  Open Scope K_scope.
  Add Ring KringNR : (kring S).
  Variable ord : list name -> list name.
  Variable Hord : forall l, Permutation (ord l) l.

  (** what expanding the nodes [l] does *)
  Record expanded n (l : list name) n' : Prop := {
    xp_reg : regular n';
    xp_value : forall o, value n' o = value n o;
    xp_shape : map (edim n') (opens n') = map (edim n) (opens n);
    xp_nodes : forall y nd', get y (nodes n') = Some nd' ->
      plain (n_val nd') \/ (~ In y l /\ exists nd, get y (nodes n) = Some nd /\ n_val nd' = n_val nd);
    xp_keep : forall y nd, get y (nodes n) = Some nd -> ~ In y l \/ plain (n_val nd) ->
      exists nd', get y (nodes n') = Some nd' /\ n_val nd' = n_val nd;
    xp_distinct : distinct n -> distinct n';
    xp_straight : (forall x m, In x l -> held n x m -> straight m) -> opens n' = opens n;
    xp_leaf : forall v, leaf n' v -> leaf n v;
    xp_names : forall y, In y (keys (nodes n')) -> In y (keys (nodes n)) \/ exists x r, In x (keys (nodes n)) /\ y = NT (tup x ++ r);
    xp_edges : forall e, In e (keys (edges n')) -> In e (keys (edges n)) \/ exists x m r, In x l /\ held n x m /\ e = NT (tup x ++ r);
    xp_old : forall (P : name -> Prop) l', (forall y, In y l' -> ~ In y l) -> (forall e, net_leg n (l ++ l') e -> P e) ->
      (forall e, net_leg n' l' e -> P e) /\ ((forall e, In e (opens n) -> P e) -> forall e, In e (opens n') -> P e);
    xp_tidy : forall l', (forall y, In y l' -> ~ In y l) -> tidy n (l ++ l') -> tidy n' l' /\ (bare_opens n -> bare_opens n');
    xp_valued : forall s l' f, (forall y, In y l' -> ~ In y l) -> valued_on s (l ++ l') f n ->
      exists f', valued_on s l' f' n' /\ map f' (opens n') = map f (opens n);
    xp_dead : forall l' P', (forall y, In y l' -> ~ In y l) -> dead_on l' P' n' ->
      exists P, dead_on (l ++ l') P n /\ Forall2 (fun e e' => P e <-> P' e') (opens n) (opens n') /\
        ((forall x m, In x l -> held n x m -> live m) -> (exists e, P' e) -> exists e, P e)
  }.

  Lemma round_net k x l n nd m m1 : regular n -> NoDup (x :: l) -> expandable k n (x :: l) ->
    get x (nodes n) = Some nd -> n_val nd = Some (VNet m) ->
    regular m1 -> (forall o, value m1 o = value m o) -> map (edim m1) (opens m1) = map (edim m) (opens m) ->
    flat m1 -> distinct m1 -> (straight m -> opens m1 = opens m) -> (forall v, leaf m1 v -> leaf m v) ->
    (tame m -> tidy m1 [] /\ bare_opens m1) ->
    (forall g, valued g m -> exists g1, fixed_as true g1 m1 /\ map g1 (opens m1) = map g (opens m)) ->
    (forall Q1, dead_on [] Q1 m1 -> exists Q, dead Q m /\ Forall2 (fun e e' => Q e <-> Q1 e') (opens m) (opens m1) /\
       ((forall y m', held m y m' -> live m') -> (exists e, Q1 e) -> exists e, Q e)) ->
    exists n', (let m2 := add_attribute x m1 in
                modify (fun n => graph_union n m2) ;;
                let! ps := lift (wires (n_legs nd) (opens m2)) in
                foreach (join ord (n_legs nd)) (components ps)) (graph_del_node n x) = (n', Ok tt) /\
      expanded n [x] n' /\ expandable k n' l.
  Proof.
    intros R ND X G V R1 Vm Shm Fl (Zn & Ze & Dn & De) Str Lf Tm Vt Dt. pose proof (proj1 (rg_inv R)) as W.
    assert (X' := X). assert (X'' : separate n (x :: l) /\ sortable n (x :: l)) by (destruct k; split; apply X).
    destruct X'' as [Sep (bent & Sb & Sor)]. clear X'.
    destruct (Sep x m (or_introl eq_refl)) as [Sn Se]; [exists nd; auto|].
    assert (In1 : inj_on (comb_name x) (keys (nodes m1))).
    { intros a b Ia Ib Q. injection Q as Q. apply app_inv_head in Q. auto. }
    assert (In2 : inj_on (comb_name x) (keys (edges m1))).
    { intros a b Ia Ib Q. injection Q as Q. apply app_inv_head in Q. auto. }
    set (m2 := add_attribute x m1).
    pose proof (attr_regular R1 In1 In2) as R2. fold m2 in R2.
    assert (V2 : forall o, value m2 o = value m o) by (intros o; unfold m2; rewrite attr_value; auto).
    assert (Sh2 : map (edim m2) (opens m2) = map (edim m) (opens m)) by (unfold m2; rewrite attr_shape; auto).
    assert (Dn2 : forall y, In y (keys (nodes m2)) -> In y (keys (nodes n)) -> y = x).
    { intros y I J. apply Sn; auto. unfold m2 in I. rewrite attr_keys_nodes in I by auto. apply in_map_iff in I as (z & <- & _). apply starts_comb. }
    assert (De2 : forall e, In e (keys (edges m2)) -> ~ In e (keys (edges n))).
    { intros e I J. unfold m2 in I. rewrite attr_keys_edges in I by auto. apply in_map_iff in I as (z & <- & _). apply (Se _ (tup z) J). reflexivity. }
    pose proof (un_regular R R2 Dn2 De2) as Ru.
    set (n1 := graph_union (graph_del_node n x) m2) in *.
    destruct (rg_sized R x G) as (t & Et & Sht & Kn). rewrite V in Et. injection Et as <-.
    assert (Shc : map (edim n) (n_legs nd) = map (edim m2) (opens m2)).
    { rewrite Sh2. simpl in Sht. injection Sht as Sht. symmetry. exact Sht. }
    assert (Len : length (n_legs nd) = length (opens m2)) by (rewrite <- (map_length (edim n)), Shc, map_length; auto).
    assert (Old : forall e, In e (n_legs nd) -> In e (keys (edges n))) by (intros e Ie; eapply (wf_legs W); eauto).
    assert (New : forall e, In e (opens m2) -> In e (keys (edges m2))) by (apply (wf_opens (proj1 (rg_inv R2)))).
    assert (Ke : forall e, In e (keys (edges n1)) <-> In e (keys (edges n)) \/ In e (keys (edges m2))).
    { intros e. unfold n1. rewrite un_edges, keys_app, in_app_iff by auto. tauto. }
    assert (Eo : forall e, In e (keys (edges n)) -> edim n1 e = edim n e) by (intros e Ie; apply un_edim_old; auto).
    assert (En : forall e, In e (keys (edges m2)) -> edim n1 e = edim m2 e) by (intros e Ie; apply un_edim_new; auto).
    assert (Sh1 : map (edim n1) (n_legs nd) = map (edim n1) (opens m2)).
    { rewrite (map_ext_in _ _ _ (fun e Ie => Eo e (Old e Ie))), Shc. apply map_ext_in. intros e Ie. symmetry. auto. }
    set (ps := combine (n_legs nd) (opens m2)).
    destruct (components_spec ps) as (C1 & C2 & C3).
    assert (Ip : forall p, In p ps -> In (fst p) (n_legs nd) /\ In (snd p) (opens m2)).
    { intros [a b] I. split; [eapply in_combine_l|eapply in_combine_r]; eauto. }
    assert (Hx : In x bent \/ straight m) by (apply Sb; [simpl; auto|exists nd; auto]).
    (** a straight network joins no two outer edges *)
    assert (One : straight m -> forall c a b, In c (components ps) -> In a c -> In b c -> In a (n_legs nd) -> In b (n_legs nd) -> a = b).
    { intros St c a b Ic Ia Ib Ja Jb.
      assert (NDo : NoDup (opens m2)).
      { unfold m2, add_attribute. cbn [opens]. apply inj_on_NoDup.
        - intros u v Iu Iv. apply In2; apply (wf_opens (proj1 (rg_inv R1))); auto.
        - rewrite (Str St). apply St. }
      set (h := fun e => match get e (combine (opens m2) (n_legs nd)) with Some c => c | None => e end).
      assert (Hh : const_on h c).
      { apply C3; auto. intros p Ip'. assert (A : h (fst p) = fst p).
        { unfold h. destruct (get (fst p) (combine (opens m2) (n_legs nd))) eqn:Q; auto. apply get_In, in_combine_l in Q.
          exfalso. apply (De2 (fst p)); auto. apply Old. apply (Ip p Ip'). }
        rewrite A. unfold h. rewrite (@In_get _ _ _ (snd p) (fst p) (combine (opens m2) (n_legs nd))); auto.
        - rewrite keys_combine by lia. auto.
        - destruct p as [u v]. apply in_combine_swap. auto. }
      assert (Hl : forall e, In e (n_legs nd) -> h e = e).
      { intros e Ie. unfold h. destruct (get e (combine (opens m2) (n_legs nd))) eqn:Q; auto. apply get_In, in_combine_l in Q.
        exfalso. apply (De2 e); auto. }
      rewrite <- (Hl a Ja), <- (Hl b Jb). apply Hh; auto. }
    assert (Cmp : forall c a b, In c (components ps) -> In a c -> In b c -> In a (n_legs nd) -> In b (n_legs nd) -> exists r, name_lt a b = Ok r).
    { intros c a b Ic Ia Ib Ja Jb. destruct Hx as [Hx|St].
      - apply Sor; exists x, nd, m; simpl; auto.
      - assert (a = b) as -> by (eapply One; eauto). apply name_lt_refl. intros ->. apply (proj2 (rg_inv R)). auto. }
    destruct (@joins_ok S ord Hord (n_legs nd) (components ps) n1 Cmp Ru C1) as (n' & r & E' & R' & V' & K' & C' & O' & Ed' & D' & L' & T' & P' & X' & Y1 & Y2).
    { intros e Ie. apply C2 in Ie as (p & I & Q). apply Ip in I as [I1 I2]. apply Ke. destruct Q as [->| ->]; auto. }
    { intros c Ic. assert (Q : const_on (edim n1) c) by (apply C3; auto; apply combine_same; auto).
      destruct (components_has (fun e => In e (n_legs nd)) ps) with (c := c) as (a & Ia & Ja); auto.
      { intros p I. apply (Ip p I). }
      assert (Ka : edim n1 a <> None) by (rewrite Eo; auto).
      destruct (edim n1 a) as [D|] eqn:Qa; [|congruence]. exists D. intros e Ie. rewrite <- Qa. apply Q; auto. }
    { apply components_has. intros p I. apply (Ip p I). }
    exists n'.
    assert (Rs : straight m -> forall e, In e (keys (edges n)) -> r e = e).
    { intros St e Ie. destruct (L' e) as [Q|(c & Ic & Ec & Rc & Rn)]; auto. apply (One St c); auto.
      assert (Q : In e (concat (components ps))) by (apply in_concat; eauto). apply C2 in Q as (p & I & [->| ->]); [apply (Ip p I)|].
      exfalso. apply (De2 (snd p)); auto. apply New. apply (Ip p I). }
    assert (Gn : forall y nd', get y (nodes n') = Some nd' -> exists nd1, get y (nodes n1) = Some nd1 /\ n_legs nd' = map r (n_legs nd1) /\ n_val nd' = n_val nd1).
    { intros y nd' Gy. specialize (C' y). rewrite Gy in C'. destruct (get y (nodes n1)) as [nd1|]; [|discriminate].
      simpl in C'. unfold content in C'. injection C' as Q1 Q2. eauto. }
    assert (Gn' : forall y nd1, get y (nodes n1) = Some nd1 -> exists nd', get y (nodes n') = Some nd' /\ n_legs nd' = map r (n_legs nd1) /\ n_val nd' = n_val nd1).
    { intros y nd1 Gy. specialize (C' y). rewrite Gy in C'. destruct (get y (nodes n')) as [nd'|]; [|discriminate].
      simpl in C'. unfold content in C'. injection C' as Q1 Q2. eauto. }
    assert (Fl2 : forall y nd2, get y (nodes m2) = Some nd2 -> plain (n_val nd2)).
    { intros y nd2 Gy. apply attr_node_inv in Gy as (z & ndz & -> & Gz & ->); auto. apply (Fl z ndz Gz). }
    assert (Keep : forall y nd0, y <> x -> get y (nodes n) = Some nd0 -> exists nd', get y (nodes n') = Some nd' /\ n_legs nd' = map r (n_legs nd0) /\ n_val nd' = n_val nd0).
    { intros y nd0 Ny Gy. apply Gn'. unfold n1. rewrite un_get_old; auto. eapply get_Some_key; eauto. }
    assert (Nod : forall y, In y (keys (nodes n')) -> (y <> x /\ In y (keys (nodes n))) \/ exists z, In z (keys (nodes m1)) /\ y = comb_name x z).
    { intros y. rewrite K'. unfold n1. rewrite un_nodes by auto. rewrite keys_app, in_app_iff, keys_del_In. unfold m2 at 1. rewrite attr_keys_nodes by auto.
      rewrite in_map_iff. intros [[]|(z & <- & Iz)]; eauto. }
    assert (Edg : forall e, In e (keys (edges n')) -> In e (keys (edges n)) \/ exists z, In z (keys (edges m1)) /\ e = comb_name x z).
    { intros e Ie. apply Ed', Ke in Ie as [Ie|Ie]; auto. unfold m2 in Ie. rewrite attr_keys_edges in Ie by auto. apply in_map_iff in Ie as (z & <- & Iz). eauto. }
    assert (Ge1 : forall e, In e (keys (edges n)) -> get e (edges n1) = get e (edges n)).
    { intros e Ie. unfold n1. rewrite un_edges, get_app by auto. apply key_get in Ie as (ed & ->). auto. }
    assert (Ge2 : forall e, In e (keys (edges m2)) -> get e (edges n1) = get e (edges m2)).
    { intros e Ie. unfold n1. rewrite un_edges, get_app by auto. destruct (get e (edges n)) eqn:Q; auto.
      apply get_Some_key in Q. destruct (De2 _ Ie Q). }
    assert (BackL : forall y nd' v, get y (nodes n') = Some nd' -> n_val nd' = v -> ~ plain v ->
      exists nd0, get y (nodes n) = Some nd0 /\ n_val nd0 = v /\ n_legs nd' = map r (n_legs nd0) /\ y <> x).
    { intros y nd' v Gy Qv Np. destruct (Gn y nd' Gy) as (nd1 & G1 & Ql & Qv1). unfold n1 in G1. apply un_node_inv in G1 as [[Ny G1]|G1]; auto.
      - exists nd1. repeat split; auto; congruence.
      - exfalso. apply Np. rewrite <- Qv, Qv1. eapply Fl2; eauto. }
    assert (RP : forall (P : name -> Prop) l' e, (forall a, net_leg n (x :: l') a -> P a) -> P e -> P (r e)).
    { intros P l' e H Pe. destruct (L' e) as [->|(c & _ & _ & _ & J)]; auto. apply H. exists x, nd, m. simpl; auto. }
    assert (Legs : forall (P : name -> Prop) l', (forall y, In y l' -> ~ In y [x]) -> (forall e, net_leg n (x :: l') e -> P e) ->
      forall e, net_leg n' l' e -> P e).
    { intros P l' Hl H e (y & nd' & my & Iy & Gy & Qv & Ie). destruct (BackL y nd' _ Gy Qv) as (nd0 & G0 & Qv0 & Ql & _); [intros []|].
      rewrite Ql in Ie. apply in_map_iff in Ie as (a & <- & Ia). apply (RP P l'); auto. apply H. exists y, nd0, my. simpl; auto. }
    assert (Att : forall y e, attached n1 y e -> attached n' y (r e)).
    { intros y e (nd1 & G1 & I1). destruct (Gn' y nd1 G1) as (nd' & A & B & _). exists nd'. split; auto. rewrite B. apply in_map; auto. }
    assert (Tidy : forall l', (forall y, In y l' -> ~ In y [x]) -> tidy n (x :: l') -> tidy n' l' /\ (bare_opens n -> bare_opens n')).
    { intros l' Hl' (Lv & Ov & Cl & Tn).
      destruct Tm as [(Lv1 & Ov1 & _ & _) B1]; [apply (Tn x); simpl; auto; exists nd; auto|].
      assert (Nf : straight m \/ forall e, In e (n_legs nd) -> is_fixed n e = false) by (apply (Cl x); simpl; auto).
      assert (FrO : forall e, In e (opens m2) -> free_edge n1 e).
      { intros e Q ed Ge. assert (Q' := New _ Q). rewrite Ge2 in Ge by auto. unfold m2 in Q. unfold add_attribute in Q. cbn [opens] in Q.
          apply in_map_iff in Q as (z & Qz & Iz). rewrite <- Qz in Ge. unfold m2 in Ge. rewrite attr_get_edge in Ge by (auto; apply (wf_opens (proj1 (rg_inv R1))); auto).
          destruct (B1 z Iz) as [Q _]. unfold is_fixed in Q. rewrite Ge in Q. destruct (e_fix ed); auto. discriminate. }
      assert (Fr : forall c e, In c (components ps) -> In e c -> free_edge n1 e \/ forall a, In a c -> In a (n_legs nd) -> a = e).
      { intros c e Ic Ie. assert (Ie' : In e (concat (components ps))) by (apply in_concat; eauto). apply C2 in Ie' as (p & Hp & [->| ->]).
        - destruct Nf as [St|Nf].
          + right. intros a Ia Ja. apply (One St c); auto. apply (Ip p Hp).
          + left. intros ed Ge. assert (Q := Nf _ (proj1 (Ip p Hp))). rewrite Ge1 in Ge by (apply Old, (Ip p Hp)). unfold is_fixed in Q. rewrite Ge in Q.
            destruct (e_fix ed); auto. discriminate.
        - left. apply FrO. apply (Ip p Hp). }
      specialize (X' Fr).
      assert (Fix : forall e, In e (keys (edges n)) -> is_fixed n e = false -> is_fixed n' e = false).
      { intros e Ie Q. unfold is_fixed. destruct (get e (edges n')) as [ed|] eqn:Ge; auto. destruct (X' e ed Ge) as (ed0 & G0 & ->).
        rewrite Ge1 in G0 by auto. unfold is_fixed in Q. rewrite G0 in Q. auto. }
      assert (InnerAtt : forall z e, attached m1 z e -> attached n1 (comb_name x z) (comb_name x e)).
      { intros z e (ndz & Gz & Iz). exists (Node (map (comb_name x) (n_legs ndz)) true (n_val ndz)). split; [|apply in_map; auto].
        assert (Kz : In z (keys (nodes m1))) by (eapply get_Some_key; eauto). assert (Q : get (comb_name x z) (nodes m2) = Some (Node (map (comb_name x) (n_legs ndz)) true (n_val ndz))).
        { unfold m2. rewrite attr_get_node, Gz by auto. reflexivity. }
        unfold n1. rewrite un_get_new; auto. eapply get_Some_key; eauto. }
      assert (Rps : forall p, In p ps -> r (fst p) = r (snd p)) by (apply C3; intros c Ic a b Ia Ib; apply (T' c); auto).
      assert (LegAtt : forall a, In a (n_legs nd) -> exists z, attached n' z (r a)).
      { intros a Ia. assert (exists o, In (a, o) ps) as (o & Io).
        { destruct (In_nth _ _ (NI 0) Ia) as (i & Li & Q). exists (nth i (opens m2) (NI 0)). rewrite <- Q. unfold ps.
          rewrite <- combine_nth by auto. apply nth_In. rewrite combine_length. lia. }
        rewrite (Rps _ Io : r a = r o). assert (Jo := proj2 (Ip _ Io)). cbn [snd] in Jo. unfold m2, add_attribute in Jo. cbn [opens] in Jo.
        apply in_map_iff in Jo as (z & <- & Iz). destruct (B1 z Iz) as [_ (y & Ay)]. exists (comb_name x y). apply Att, InnerAtt; auto. }
      assert (OldAtt : forall y a, attached n y a -> exists z, attached n' z (r a)).
      { intros y a (ndy & Gy & Ia). destruct (eq_dec_of_eqb y x) as [->|Ny].
        - apply LegAtt. congruence.
        - exists y. apply Att. exists ndy. split; auto. unfold n1. rewrite un_get_old; auto. eapply get_Some_key; eauto. }
      assert (OpIn : forall e, In e (opens n) -> In e (keys (edges n')) -> In e (opens n')).
      { intros e Io Ik. rewrite O'. rewrite <- (P' e Ik). apply in_map. auto. }
      assert (Gz : forall z, In z (keys (edges m1)) -> get (comb_name x z) (edges n1) = get z (edges m1)).
      { intros z Iz. assert (J : In (comb_name x z) (keys (edges m2))) by (unfold m2; rewrite attr_keys_edges by auto; apply in_map; auto).
        rewrite Ge2 by auto. unfold m2. apply attr_get_edge; auto. }
      assert (Rf : forall a, In a (keys (edges n)) -> is_fixed n a = false -> is_fixed n' (r a) = false).
      { intros a Ia Fa. destruct Nf as [St|Nf]; [rewrite (Rs St) by auto; auto|].
        destruct (L' a) as [->|(c & _ & _ & _ & J)]; auto. }
      split; [split; [|split; [|split]]|].
      - intros e ed Ge. assert (Ie : In e (keys (edges n'))) by (eapply get_Some_key; eauto). assert (Re := P' e Ie).
        destruct (X' e ed Ge) as (ed0 & G0 & Qf). rewrite Qf. apply Edg in Ie as [Ie|(z & Iz & ->)].
        + rewrite Ge1 in G0 by auto. destruct (Lv e ed0 G0) as [J|[J|(y & J)]]; auto.
          * left. apply OpIn; auto. eapply get_Some_key; eauto.
          * right; right. apply OldAtt in J as (q & J). rewrite Re in J. eauto.
        + rewrite Gz in G0 by auto. destruct (Lv1 z ed0 G0) as [J|[J|(y & J)]]; auto.
          * right; right. assert (Jo : In (comb_name x z) (opens m2)) by (unfold m2, add_attribute; cbn [opens]; apply in_map; auto).
            destruct (In_nth _ _ (NI 0) Jo) as (i & Li & Q).
            assert (Io : In (nth i (n_legs nd) (NI 0), comb_name x z) ps).
            { rewrite <- Q. unfold ps. rewrite <- combine_nth by auto. apply nth_In. rewrite combine_length. lia. }
            rewrite <- Re, <- (Rps _ Io : r _ = r (comb_name x z)). apply LegAtt. apply (Ip _ Io).
          * right; right. exists (comb_name x y). rewrite <- Re. apply Att, InnerAtt; auto.
      - intros e ed fx Ge Qx No. assert (Ie : In e (keys (edges n'))) by (eapply get_Some_key; eauto). assert (Re := P' e Ie).
        destruct (X' e ed Ge) as (ed0 & G0 & Qf). assert (Ik := Ie). apply Edg in Ie as [Ie|(z & Iz & ->)].
        + rewrite Ge1 in G0 by auto. apply (Ov e ed0); auto. congruence.
        + assert (G1 := G0). rewrite Gz in G0 by auto. apply (Ov1 z ed0); auto; [congruence|]. intros J.
          assert (Jo : In (comb_name x z) (opens m2)) by (unfold m2, add_attribute; cbn [opens]; apply in_map; auto).
          destruct (In_nth _ _ (NI 0) Jo) as (i & Li & Q).
          assert (Io : In (nth i (n_legs nd) (NI 0), comb_name x z) ps).
          { rewrite <- Q. unfold ps. rewrite <- combine_nth by auto. apply nth_In. rewrite combine_length. lia. }
          assert (Q' : e_fix ed0 = None); [|congruence]. apply (FrO (comb_name x z)); auto.
      - intros y nd' my Iy Gy Qv. destruct (BackL y nd' _ Gy Qv) as (nd0 & G0 & Qv0 & Ql & _); [intros []|].
        destruct (Cl y nd0 my) as [St|Nl]; simpl; auto. right. intros e Ie. rewrite Ql in Ie. apply in_map_iff in Ie as (a & <- & Ia).
        apply Rf; auto. eapply (wf_legs W); eauto.
      - intros y my Iy (nd' & Gy & Qv). destruct (BackL y nd' _ Gy Qv) as (nd0 & G0 & Qv0 & _); [intros []|].
        apply (Tn y); simpl; auto. exists nd0. auto.
      - intros Bn e Ie. rewrite O' in Ie. apply in_map_iff in Ie as (a & <- & Ia). change (opens n1) with (opens n) in Ia.
        destruct (Bn a Ia) as [Fa (y & Ya)]. split; [|apply (OldAtt y); auto].
        apply Rf; auto. apply (wf_opens W); auto. }
    assert (Rps : forall p, In p ps -> r (fst p) = r (snd p)) by (apply C3; intros c Ic a b Ia Ib; apply (T' c); auto).
    assert (Om2 : opens m2 = map (comb_name x) (opens m1)) by reflexivity.
    assert (Gz : forall z, In z (keys (edges m1)) -> get (comb_name x z) (edges n1) = get z (edges m1)).
    { intros z Iz. assert (J : In (comb_name x z) (keys (edges m2))) by (unfold m2; rewrite attr_keys_edges by auto; apply in_map; auto).
      rewrite Ge2 by auto. unfold m2. apply attr_get_edge; auto. }
    assert (Out : forall z, In z (keys (edges m1)) -> ~ In (comb_name x z) (keys (edges n))).
    { intros z Iz. apply De2. unfold m2. rewrite attr_keys_edges by auto. apply in_map; auto. }
    assert (Om1 : forall z, In z (opens m1) -> In z (keys (edges m1))) by (apply (wf_opens (proj1 (rg_inv R1)))).
    assert (Val : forall s l' f, (forall y, In y l' -> ~ In y [x]) -> valued_on s (x :: l') f n ->
      exists f', valued_on s l' f' n' /\ map f' (opens n') = map f (opens n)).
    { intros s l' f Hl' [Fa Fn]. destruct (Fn x nd m (or_introl eq_refl) G V) as (g & Vg & Qg). destruct (Vt g Vg) as (g1 & Fg & Qg1).
      set (f' := fun e => if mem e (keys (edges n)) then f e else
                   match find (fun z => eqb (comb_name x z) e) (keys (edges m1)) with Some z => g1 z | None => O end).
      assert (Fo : forall e, In e (keys (edges n)) -> f' e = f e) by (intros e Ie; unfold f'; rewrite (proj2 (mem_In e _) Ie); auto).
      assert (Fi : forall z, In z (keys (edges m1)) -> f' (comb_name x z) = g1 z).
      { intros z Iz. unfold f'. rewrite (proj2 (mem_false_iff _ _) (Out z Iz)).
        destruct (find (fun z0 => eqb (comb_name x z0) (comb_name x z)) (keys (edges m1))) as [w|] eqn:Q.
        - apply find_some in Q as [Iw Q]. apply (proj1 (eqb_eq (comb_name x w) _)) in Q. exact (f_equal g1 (In2 w z Iw Iz Q)).
        - eapply find_none in Q; [|exact Iz]. simpl in Q. rewrite eqb_refl in Q. discriminate. }
      assert (Fc : forall c, In c (components ps) -> const_on f' c).
      { apply C3. apply combine_same; auto. rewrite (map_ext_in _ _ _ (fun e Ie => Fo e (Old e Ie))), <- Qg, <- Qg1, Om2, map_map.
        apply map_ext_in. intros z Iz. symmetry. auto. }
      assert (Fr : forall e, f' (r e) = f' e).
      { intros e. destruct (L' e) as [->|(c & Ic & Ec & Rc & _)]; auto. apply (Fc c); auto. }
      exists f'. split; [split|].
      - apply Y1; [intros c a b Ic Ia Ib; apply (Fc c); auto|]. intros e ed fx Ge Fx Hs. assert (Ie : In e (keys (edges n1))) by (eapply get_Some_key; eauto).
        apply Ke in Ie as [Ie|Ie].
        + rewrite Ge1 in Ge by auto. rewrite Fo by auto. apply (Fa e ed); auto.
        + unfold m2 in Ie. rewrite attr_keys_edges in Ie by auto. apply in_map_iff in Ie as (z & <- & Iz). rewrite Fi by auto. rewrite Gz in Ge by auto.
          apply (Fg z ed); auto.
      - intros y nd' my Iy Gy Qv. destruct (BackL y nd' _ Gy Qv) as (nd0 & G0 & Qv0 & Ql & _); [intros []|].
        destruct (Fn y nd0 my (or_intror Iy) G0 Qv0) as (gy & Vy & Qy). exists gy. split; auto. rewrite Qy, Ql, map_map. apply map_ext_in.
        intros a Ia. rewrite Fr. symmetry. apply Fo. eapply (wf_legs W); eauto.
      - rewrite O', map_map. apply map_ext_in. intros a Ia. rewrite Fr. apply Fo. apply (wf_opens W); auto. }
    assert (Ded : forall l' P0, (forall y, In y l' -> ~ In y [x]) -> dead_on l' P0 n' ->
      exists P, dead_on (x :: l') P n /\ Forall2 (fun e e' => P e <-> P0 e') (opens n) (opens n') /\
        ((forall y my, In y [x] -> held n y my -> live my) -> (exists e, P0 e) -> exists e, P e)).
    { intros l' P0 Hl' (K1 & K2 & K3).
      set (P := fun e => In e (keys (edges n)) /\ P0 (r e)). set (Q1 := fun z => In z (keys (edges m1)) /\ P0 (r (comb_name x z))).
      assert (Nfx : forall e, In e (keys (edges n1)) -> P0 (r e) -> is_fixed n1 e = false).
      { intros e Ie Pe. destruct (is_fixed n1 e) eqn:Q; auto. apply Y2 in Q; auto. destruct (K1 _ Pe). congruence. }
      destruct (Dt Q1) as (Q & Dq & Qq & Qe).
      { split; [|split; [|intros ? ? ? []]].
        - intros z [Iz Pz]. split; auto. rewrite <- (Nfx (comb_name x z)); auto; [unfold is_fixed; rewrite Gz by auto; reflexivity|].
          apply Ke. right. unfold m2. rewrite attr_keys_edges by auto. apply in_map; auto.
        - intros z ndz e Gzn _ Ie [_ Pe].
          assert (Kz : In z (keys (nodes m1))) by (eapply get_Some_key; eauto).
          assert (Gz2 : get (comb_name x z) (nodes m2) = Some (Node (map (comb_name x) (n_legs ndz)) true (n_val ndz))).
          { unfold m2. rewrite attr_get_node, Gzn by auto. reflexivity. }
          assert (Gz1 : get (comb_name x z) (nodes n1) = Some (Node (map (comb_name x) (n_legs ndz)) true (n_val ndz))).
          { unfold n1. rewrite un_get_new; auto. eapply get_Some_key; eauto. }
          destruct (Gn' _ _ Gz1) as (nd' & G' & Ql & Qv). apply (K2 _ nd' (r (comb_name x e)) G'); auto.
          + right. intros my Q. rewrite Qv in Q. cbn [n_val] in Q. assert (Pl := Fl z ndz Gzn). rewrite Q in Pl. exact Pl.
          + rewrite Ql. cbn [n_legs]. apply in_map, in_map. exact Ie. }
      assert (PQ : Forall2 (fun e o => P e <-> Q o) (n_legs nd) (opens m)).
      { assert (Z : forall (la lb : list name) lc, length la = length lb ->
          (forall p, In p (combine la (map (comb_name x) lb)) -> r (fst p) = r (snd p)) -> (forall e, In e la -> In e (keys (edges n))) ->
          (forall e, In e lb -> In e (keys (edges m1))) -> Forall2 (fun e e' => Q e <-> Q1 e') lc lb -> Forall2 (fun e o => P e <-> Q o) la lc).
        { induction la as [|a la IH]; intros [|b lb] lc Lab Hp Ha Hb H2; try discriminate; inversion H2 as [|q b' lq lb' Hq Hl E1 E2]; subst; constructor.
          - assert (Z := Hp (a, comb_name x b) (or_introl eq_refl)). cbn [fst snd] in Z. rewrite Hq. unfold P, Q1. rewrite Z.
            assert (In a (keys (edges n))) by (apply Ha; simpl; auto). assert (In b (keys (edges m1))) by (apply Hb; simpl; auto). tauto.
          - apply (IH lb); auto; try (intros; first [apply Hp|apply Ha|apply Hb]; simpl; auto). }
        apply (Z (n_legs nd) (opens m1)); auto.
        rewrite Len, Om2, map_length. auto. }
      exists P. split; [split; [|split]|split].
      - intros e [Ie Pe]. split; auto. rewrite <- (Nfx e); auto; [unfold is_fixed; rewrite Ge1 by auto; reflexivity|]. apply Ke; auto.
      - intros y ndy e Gy Hy Ie [_ Pe]. assert (Ny : y <> x).
        { intros ->. destruct Hy as [Hy|Hy]; [apply Hy; simpl; auto|]. assert (ndy = nd) by congruence. subst. apply (Hy m); auto. }
        destruct (Keep y ndy Ny Gy) as (nd' & G' & Ql & Qv). apply (K2 y nd' (r e) G'); auto.
        + destruct Hy as [Hy|Hy]; [left; intros J; apply Hy; simpl; auto|right; intros my; rewrite Qv; auto].
        + rewrite Ql. apply in_map; auto.
      - intros y ndy my [<-|Iy] Gy Qv.
        + assert (ndy = nd) by congruence. subst ndy. assert (my = m) by congruence. subst my. exists Q. auto.
        + assert (Ny : y <> x) by (intros ->; apply (Hl' x Iy); simpl; auto).
          destruct (Keep y ndy Ny Gy) as (nd' & G' & Ql & Qv'). destruct (K3 y nd' my Iy G') as (Qy & Dy & Fy); [congruence|].
          exists Qy. split; auto. rewrite Ql in Fy. assert (Kl : forall a, In a (n_legs ndy) -> In a (keys (edges n))) by (intros a; eapply (wf_legs W); eauto).
          revert Fy Kl. generalize (n_legs ndy) (opens my). clear. induction l as [|a l IH]; intros lo F Kl; inversion F as [|q b' lq lb' Hq Hl E1 E2]; subst; constructor.
          * rewrite <- Hq. unfold P. split; [tauto|]. intros; split; auto. apply Kl; simpl; auto.
          * apply IH; auto. intros; apply Kl; simpl; auto.
      - rewrite O'. change (opens n1) with (opens n). assert (Kl : forall a, In a (opens n) -> In a (keys (edges n))) by (apply (wf_opens W)).
        revert Kl. generalize (opens n). clear. induction l as [|a l IH]; intros Kl; constructor.
        + unfold P. split; [tauto|]. intros; split; auto. apply Kl; simpl; auto.
        + apply IH. intros; apply Kl; simpl; auto.
      - intros Lv (e & Pe). destruct (K1 e Pe) as [Ie _]. assert (Re := P' e Ie). apply Edg in Ie as [Ie|(z & Iz & ->)].
        + exists e. split; auto. rewrite Re. auto.
        + assert (Lm : live m) by (apply (Lv x); [simpl; auto|exists nd; auto]). destruct Lm as [Lm1 Lm2].
          destruct Qe as (w & Qw); auto; [exists z; split; auto; rewrite Re; auto|]. destruct (Lm1 Q Dq w Qw) as (o & Qo & Io).
          assert (Z : forall la lb, Forall2 (fun e o => P e <-> Q o) la lb -> In o lb -> exists a, P a).
          { induction 1 as [|a b la lb H1 H2 IH]; intros J; [destruct J|]. destruct J as [->|J]; auto. exists a. tauto. }
          eapply Z; eauto. }
    clear Gz.
    split; [|split].
    - unfold m2 in *. cbn zeta. unfold mbind at 1. unfold modify at 1. unfold mbind at 1, lift. rewrite wires_ok by auto. exact E'.
    - constructor; auto.
      + intros o. rewrite V'. rewrite <- (@un_value S n m2 x nd (VNet m) R R2 G V Dn2 De2 o) by (intros q; symmetry; apply V2).
        apply esum_ext_all. intros s. f_equal. f_equal. apply eq_true_iff_eq. rewrite forallb_forall.
        split; intros Q.
        * apply eqb_eq. apply combine_same; auto. apply C3. intros c Ic. apply Q in Ic. intros u v Iu Iv. apply (proj1 (all_same_spec s c) Ic); auto.
        * apply (proj1 (eqb_eq (map s (n_legs nd)) _)) in Q. intros c Ic. apply all_same_spec. assert (Qc : const_on s c) by (apply C3; auto; apply combine_same; auto). auto.
      + rewrite O', map_map. change (opens n1) with (opens n). apply map_ext_in. intros e Ie. rewrite D'.
        * apply Eo. apply (wf_opens W); auto.
        * apply Ke. left. apply (wf_opens W); auto.
      + intros y nd' Gy. destruct (Gn y nd' Gy) as (nd1 & G1 & _ & ->). unfold n1 in G1. apply un_node_inv in G1 as [[Ny G1]|G1]; auto.
        * right. split; [intros [->|[]]; auto|]. eauto.
        * left. eapply Fl2; eauto.
      + intros y nd0 Gy H. assert (Ny : y <> x).
        { intros ->. destruct H as [H|H]; [apply H; simpl; auto|]. assert (nd0 = nd) by congruence. subst. rewrite V in H. exact H. }
        destruct (Keep y nd0 Ny Gy) as (nd' & A & _ & B). eauto.
      + intros (Zx1 & Zx2 & Dx1 & Dx2).
        assert (Tn : forall a, tup a = [] -> a = NT []) by (intros [| | |[|]]; simpl; congruence).
        assert (Nx : tup x <> []).
        { intros Q. apply Tn in Q. apply Zx1. rewrite <- Q. eapply get_Some_key; eauto. }
        assert (Oute : forall a w, In a (keys (edges n)) -> In w (keys (edges m1)) -> tup a <> tup x ++ tup w).
        { intros a w Ia Iw Q. destruct a as [| | |q].
          4:{ apply (Se _ (tup w) Ia). rewrite <- Q. reflexivity. }
          all: assert (Nw : tup w <> []) by (intros Qw; apply Tn in Qw; subst; auto);
               apply (f_equal (@length name)) in Q; rewrite app_length in Q; simpl in Q;
               destruct (tup x), (tup w); simpl in Q; try congruence; lia. }
        split; [|split; [|split]].
        1:{ intros J. apply Nod in J as [[_ J]|(z & Iz & J)]; auto. injection J as J. symmetry in J. apply app_eq_nil in J. tauto. }
        1:{ intros J. apply Edg in J as [J|(z & Iz & J)]; auto. injection J as J. symmetry in J. apply app_eq_nil in J. tauto. }
        all: intros a b Ia Ib Q.
        * apply Nod in Ia as [[Na Ia]|(z & Iz & ->)], Ib as [[Nb Ib]|(w & Iw & ->)]; auto.
          -- exfalso. apply Na, Sn; auto. exists (tup w). rewrite Q. apply tup_comb.
          -- exfalso. apply Nb, Sn; auto. exists (tup z). rewrite <- Q. apply tup_comb.
          -- rewrite !tup_comb in Q. apply app_inv_head in Q. f_equal. auto.
        * apply Edg in Ia as [Ia|(z & Iz & ->)], Ib as [Ib|(w & Iw & ->)]; auto.
          -- exfalso. apply (Oute a w); auto.
          -- exfalso. apply (Oute b z); auto.
          -- rewrite !tup_comb in Q. apply app_inv_head in Q. f_equal. auto.
      + intros St. rewrite O'. change (opens n1) with (opens n). rewrite <- (map_id (opens n)) at 2. apply map_ext_in. intros e Ie.
        apply Rs; [apply (St x); simpl; auto; exists nd; auto|]. apply (wf_opens W); auto.
      + intros v Hv. destruct Hv as [y nd' Gy Qv Pv|y my (nd' & Gy & Qv) Hv].
        * destruct (Gn y nd' Gy) as (nd1 & G1 & _ & Qv1). rewrite Qv in Qv1. symmetry in Qv1. unfold n1 in G1. apply un_node_inv in G1 as [[Ny G1]|G1]; auto.
          -- eapply leaf_here; eauto.
          -- apply attr_node_inv in G1 as (z & ndz & -> & Gz & ->); auto. apply leaf_in with (x := x) (m := m); [exists nd; auto|].
             apply Lf. eapply leaf_here; eauto.
        * destruct (BackL y nd' _ Gy Qv) as (nd0 & G0 & Qv0 & _); [intros []|]. apply leaf_in with (x := y) (m := my); auto. exists nd0; auto.
      + intros y Iy. apply Nod in Iy as [[_ Iy]|(z & Iz & ->)]; auto. right. exists x, (tup z). split; [eapply get_Some_key; eauto|reflexivity].
      + intros e Ie. apply Edg in Ie as [Ie|(z & Iz & ->)]; auto. right. exists x, m, (tup z). split; [simpl; auto|]. split; [exists nd; auto|reflexivity].
      + intros P l' Hl' HP. split; [exact (Legs P l' Hl' HP)|]. intros Ho e Ie. rewrite O' in Ie. apply in_map_iff in Ie as (a & <- & Ia).
        apply (RP P l' _ HP); auto.
    - assert (Nx : forall y, In y l -> y <> x) by (intros y I ->; inversion ND; auto).
      pose proof BackL as Back.
      assert (Sep' : separate n' l).
      { intros y my Iy (nd' & Gy & Qv). destruct (Back y nd' _ Gy Qv) as (nd0 & G0 & Qv0 & _); [intros []|].
        destruct (Sep y my) as [A B]; [simpl; auto|exists nd0; auto|].
        assert (Bad : forall z, ~ starts y (comb_name x z)).
        { intros z (q & Q). rewrite tup_comb in Q. apply app_split_prefix in Q as [(u & Q)|(u & Q)].
          - apply (Nx y Iy). apply Sn; [eapply get_Some_key; eauto|]. exists u; auto.
          - apply (Nx y Iy). symmetry. apply A; [eapply get_Some_key; eauto|]. exists u; auto. }
        split.
        - intros w Iw Q. apply Nod in Iw as [[Nw Iw]|(z & _ & ->)]; auto. destruct (Bad z Q).
        - intros w q Iw Q. apply Edg in Iw as [Iw|(z & _ & ->)]; [apply (B w q); auto|]. apply (Bad z). exists q. rewrite Q. auto. }
      assert (Leg : forall e, net_leg n' bent e -> net_leg n bent e).
      { intros e (y & nd' & my & Iy & Gy & Qv & Ie). destruct (Back y nd' _ Gy Qv) as (nd0 & G0 & Qv0 & Ql & _); [intros []|].
        rewrite Ql in Ie. apply in_map_iff in Ie as (a & <- & Ia).
        assert (Ka : In a (keys (edges n))) by (eapply (wf_legs W); eauto).
        destruct Hx as [Hx|St]; [|rewrite (Rs St) by auto; exists y, nd0, my; auto].
        destruct (L' a) as [->|(c & _ & _ & _ & J)].
        - exists y, nd0, my. simpl; auto.
        - exists x, nd, m. simpl; auto. }
      assert (Sor' : sortable n' l).
      { exists bent. split; [|intros a b Ia Ib; apply Sor; auto]. intros y my Iy (nd' & Gy & Qv).
        destruct (Back y nd' _ Gy Qv) as (nd0 & G0 & Qv0 & _); [intros []|]. apply Sb; [simpl; auto|]. exists nd0; auto. }
      assert (In' : forall y nd', In y l -> get y (nodes n') = Some nd' ->
        match n_val nd' with
        | Some (VNet m) => match k with O => False | Datatypes.S k => regular m /\ distinct m /\ expandable k m (keys (nodes m)) end
        | Some (VView _ _) => False
        | _ => True end).
      { intros y nd' Iy Gy. destruct (n_val nd') as [[d|my|ts|c v]|] eqn:Qv; auto.
        - destruct (Back y nd' _ Gy Qv) as (nd0 & G0 & Qv0 & Ql & _); [intros []|].
          assert (Z := X). destruct k; destruct Z as (_ & _ & Z); specialize (Z y nd0 (or_intror Iy) G0); rewrite Qv0 in Z; exact Z.
        - destruct (Back y nd' _ Gy Qv) as (nd0 & G0 & Qv0 & Ql & _); [intros []|].
          assert (Z := X). destruct k; destruct Z as (_ & _ & Z); specialize (Z y nd0 (or_intror Iy) G0); rewrite Qv0 in Z; exact Z. }
      destruct k; split; auto.
  Qed.

  Lemma expandable_tail k n x l : expandable k n (x :: l) -> expandable k n l.
  Proof.
    intros X. assert (Y : separate n l /\ sortable n l).
    { destruct k, X as (A & B & _); split.
      1,3: intros y m Iy; apply A; simpl; auto.
      all: destruct B as (bent & B1 & B2); exists bent; split; auto; intros y m Iy; apply B1; simpl; auto. }
    destruct Y as [A B]. destruct k, X as (_ & _ & X); (split; [exact A|split; [exact B|]]); intros y nd Iy; apply X; simpl; auto.
  Qed.
  Lemma expanded_trans n x l n1 n' : ~ In x l -> expanded n [x] n1 -> expanded n1 l n' -> expanded n (x :: l) n'.
  Proof.
    intros Nx [A1 A2 A3 A4 A5 A6 A7 A8 A9 A10 A11 A12 A13 A14] [B1 B2 B3 B4 B5 B6 B7 B8 B9 B10 B11 B12 B13 B14]. constructor; auto.
    - intros o. rewrite B2, A2. auto.
    - congruence.
    - intros y nd' Gy. destruct (B4 y nd' Gy) as [P|(Ny & nd1 & G1 & Q1)]; auto. destruct (A4 y nd1 G1) as [P|(Ny' & nd0 & G0 & Q0)].
      + left. rewrite Q1. auto.
      + right. split; [|exists nd0; split; auto; congruence]. intros [->|J]; auto. apply Ny'; simpl; auto.
    - intros y nd Gy H. destruct (A5 y nd Gy) as (nd1 & G1 & Q1).
      { destruct H as [H|H]; auto. left. intros [->|[]]. apply H; simpl; auto. }
      destruct (B5 y nd1 G1) as (nd' & G' & Q'); [|exists nd'; split; auto; congruence].
      destruct H as [H|H]; [left; intros J; apply H; simpl; auto|right; rewrite Q1; auto].
    - intros St. rewrite B7, A7; auto.
      + intros y m [->|[]] Hy. apply (St y); simpl; auto.
      + intros y m Iy (nd' & Gy & Qv). destruct (A4 y nd' Gy) as [P|(Ny & nd0 & G0 & Q0)]; [rewrite Qv in P; destruct P|].
        apply (St y); simpl; auto. exists nd0. split; congruence.
    - intros y Iy. destruct (B9 y Iy) as [J|(z & r & Iz & ->)]; auto. destruct (A9 z Iz) as [J|(w & q & Iw & ->)]; eauto.
      right. exists w, (q ++ r). split; auto. cbn [tup]. rewrite app_assoc. auto.
    - intros e Ie. destruct (B10 e Ie) as [J|(z & m & r & Iz & (nd' & Gz & Qv) & ->)].
      + destruct (A10 e J) as [K|(z & m & r & [->|[]] & H & ->)]; auto. right. exists z, m, r. simpl; auto.
      + right. destruct (A4 z nd' Gz) as [P|(Ny & nd0 & G0 & Q0)]; [rewrite Qv in P; destruct P|]. exists z, m, r. split; [simpl; auto|].
        split; auto. exists nd0. split; congruence.
    - intros P l' Hl' HP. destruct (A11 P (l ++ l')) as [J1 J2]; auto.
      { intros y Iy [->|[]]. apply in_app_iff in Iy as [Iy|Iy]; auto. apply (Hl' y Iy). simpl; auto. }
      destruct (B11 P l') as [K1 K2]; auto. intros y Iy J. apply (Hl' y Iy). simpl; auto.
    - intros l' Hl' HT. destruct (A12 (l ++ l')) as [J1 J2]; auto.
      { intros y Iy [->|[]]. apply in_app_iff in Iy as [Iy|Iy]; auto. apply (Hl' y Iy). simpl; auto. }
      destruct (B12 l') as [K1 K2]; auto. intros y Iy J. apply (Hl' y Iy). simpl; auto.
    - intros s l' f Hl' HV. destruct (A13 s (l ++ l') f) as (f1 & J1 & J2); auto.
      { intros y Iy [->|[]]. apply in_app_iff in Iy as [Iy|Iy]; auto. apply (Hl' y Iy). simpl; auto. }
      destruct (B13 s l' f1) as (f' & K1 & K2); auto.
      { intros y Iy J. apply (Hl' y Iy). simpl; auto. }
      exists f'. split; auto. congruence.
    - intros l' P' Hl' HD. destruct (B14 l' P') as (P1 & J1 & J2 & J3); auto.
      { intros y Iy J. apply (Hl' y Iy). simpl; auto. }
      destruct (A14 (l ++ l') P1) as (P & K1 & K2 & K3); auto.
      { intros y Iy [->|[]]. apply in_app_iff in Iy as [Iy|Iy]; auto. apply (Hl' y Iy). simpl; auto. }
      exists P. split; [exact K1|]. split.
      + clear -J2 K2. revert J2. generalize (opens n'). induction K2; intros lz J; inversion J; subst; constructor; [tauto|auto].
      + intros Lv E. apply K3.
        * intros y my [->|[]] Hy. apply (Lv y); simpl; auto.
        * apply J3; auto. intros y my Iy (nd' & Gy & Qv). destruct (A4 y nd' Gy) as [P0|(Ny & nd0 & G0 & Q0)]; [rewrite Qv in P0; destruct P0|].
          apply (Lv y); simpl; auto. exists nd0. split; congruence.
  Qed.
  Lemma expanded_skip n x : regular n -> (forall nd, get x (nodes n) = Some nd -> plain (n_val nd)) -> expanded n [x] n.
  Proof.
    intros R P. constructor; auto.
    - intros y nd Gy. destruct (eq_dec_of_eqb y x) as [->|Ny]; [left; apply P; auto|]. right. split; [intros [->|[]]; auto|]. eauto.
    - intros y nd Gy _. eauto.
    - intros Q l' Hl' HP. split; auto. intros e (y & nd & my & Iy & H). apply HP. exists y, nd, my. simpl; auto.
    - intros l' Hl' (A & B & C & D). split; auto. split; [|split; [|split]]; auto.
      + intros y nd my Iy. apply C. simpl; auto.
      + intros y m Iy. apply D. simpl; auto.
    - intros s l' f Hl' [A B]. exists f. split; auto. split; auto. intros y nd my Iy. apply B. simpl; auto.
    - intros l' P' Hl' (A & B & C). exists P'. split; [|split; [clear; induction (opens n); constructor; tauto|auto]]. split; [exact A|]. split.
      + intros y nd e Gy Hy. apply (B y nd); auto. destruct Hy as [Hy|Hy]; auto. left. intros J. apply Hy. simpl; auto.
      + intros y nd my [->|Iy] Gy Qv; [|apply (C y nd); auto]. specialize (P nd Gy). rewrite Qv in P. destruct P.
  Qed.
  Lemma expanded_nil n : regular n -> expanded n [] n.
  Proof.
    intros R. constructor; auto.
    - intros y nd Gy. right. split; [intros []|eauto].
    - intros y nd Gy _. eauto.
    - intros s l' f _ H. eauto.
    - intros l' P' _ H. exists P'. split; auto. split; auto. clear. induction (opens n); constructor; tauto.
  Qed.

  Lemma copy_regular n : regular n -> regular (copy_tn n).
  Proof. intros [[[W1 W2 W3 W4 W5 W6 W7] NNn] FN Sz Os]. constructor; auto. split; auto. constructor; auto. Qed.
  Lemma expandable_copy k n l : expandable k n l -> expandable k (copy_tn n) l.
  Proof. destruct k; auto. Qed.

  Lemma expand_S k xs n : expand ord (Datatypes.S k) xs n =
    foreach (expand_node ord (expand ord k None)) (match xs with None => keys (nodes n) | Some l => l end) n.
  Proof. reflexivity. Qed.
  Lemma expand_ok : forall k n xs l, regular n -> l = match xs with None => keys (nodes n) | Some l => l end ->
    NoDup l -> incl l (keys (nodes n)) -> expandable k n l ->
    exists n', expand ord (Datatypes.S k) xs n = (n', Ok tt) /\ expanded n l n'.
  Proof.
    induction k as [|k IHk].
    - intros n xs l R El. rewrite expand_S, <- El. clear El xs. revert n R.
      induction l as [|x l IH]; intros n R ND I X; [exists n; split; [reflexivity|apply expanded_nil; auto]|].
      assert (Ix : In x (keys (nodes n))) by (apply I; simpl; auto). destruct (key_get _ _ Ix) as (nd & G).
      assert (P : plain (n_val nd)).
      { destruct X as (_ & _ & X). specialize (X x nd (or_introl eq_refl) G). unfold plain. destruct (n_val nd) as [[d|my|ts|c v]|]; auto. }
      assert (E : expand_node ord (expand ord 0 None) x n = (n, Ok tt)).
      { unfold expand_node, mbind at 1, getst at 1. rewrite G. destruct (rg_sized R x G) as (t & Et & _). rewrite Et in *.
        destruct t; simpl in P; auto; tauto. }
      destruct (IH n R) as (n' & E' & X'); auto.
      { inversion ND; auto. } { intros y Iy; apply I; simpl; auto. } { eapply expandable_tail; eauto. }
      exists n'. cbn [foreach]. unfold mbind at 1. rewrite E. split; auto. apply expanded_trans with (n1 := n); auto.
      { inversion ND; auto. } apply expanded_skip; auto. intros nd' G'. assert (nd' = nd) by congruence. subst; auto.
    - intros n xs l R El. rewrite expand_S, <- El. clear El xs. revert n R.
      induction l as [|x l IH]; intros n R ND I X; [exists n; split; [reflexivity|apply expanded_nil; auto]|].
      assert (Ix : In x (keys (nodes n))) by (apply I; simpl; auto). destruct (key_get _ _ Ix) as (nd & G).
      destruct (rg_sized R x G) as (t & Et & _).
      assert (Nxl : ~ In x l /\ NoDup l) by (inversion ND; auto). destruct Nxl as [Nxl NDl].
      assert (Step : exists n1, expand_node ord (expand ord (Datatypes.S k) None) x n = (n1, Ok tt) /\ expanded n [x] n1 /\ expandable (Datatypes.S k) n1 l).
      { destruct t as [d|m|ts|c v].
        - exists n. split; [unfold expand_node, mbind at 1, getst at 1; rewrite G, Et; auto|]. split; [|eapply expandable_tail; eauto].
          apply expanded_skip; auto. intros nd' G'. assert (nd' = nd) by congruence. subst. rewrite Et. exact Logic.I.
        - assert (Xm : regular m /\ distinct m /\ expandable k m (keys (nodes m))).
          { destruct X as (_ & _ & X). specialize (X x nd (or_introl eq_refl) G). rewrite Et in X. exact X. }
          destruct Xm as (Rm & Dm & Xm).
          destruct (IHk (copy_tn m) None (keys (nodes m))) as (m1 & Em & [M1 M2 M3 M4 M5 M6 M7 M8 M9 M10 M11 M12 M13 M14]); auto.
          { apply copy_regular; auto. } { apply Rm. } { intros y Iy; auto. } { apply expandable_copy; auto. }
          destruct (@round_net (Datatypes.S k) x l n nd m m1) as (n1 & E1 & X1 & X2); auto.
          { intros y nd' Gy. destruct (M4 y nd' Gy) as [P|(Ny & nd0 & G0 & _)]; auto. exfalso. apply Ny. eapply get_Some_key; eauto. }
          { intros [_ St]. apply M7. intros y q _ Hy. apply (St y). exact Hy. }
          { intros v Hv. apply M8 in Hv. destruct Hv as [y nd' Gy Qv Pv|y my Hy Hv]; [eapply leaf_here; eauto|eapply leaf_in; eauto]. }
          { intros [Lv Ov Bo Nl Tm]. rewrite <- (app_nil_r (keys (nodes m))) in Nl. destruct (M12 []) as [T1 T2]; auto.
            - split; [exact Lv|]. split; [exact Ov|]. split; [exact Nl|]. intros y my _ Hy. apply (Tm y my). exact Hy. }
          { intros g [Fg Vg]. destruct (M13 true [] g) as (g1 & [F1 _] & Q1); [intros y []| |eauto]. rewrite app_nil_r. split; [exact Fg|].
            intros y ndy my _ Gy. apply (Vg y ndy my Gy). }
          { intros Q1 D1. destruct (M14 [] Q1) as (Q & D2 & Qo & Qe); [intros y []|exact D1|]. exists Q. rewrite app_nil_r in D2. destruct D2 as (U1 & U2 & U3).
            split; [|split; [exact Qo|]].
            - constructor; [exact U1| |].
              + intros y ndy e Gy Hy. apply (U2 y ndy e Gy). auto.
              + intros y ndy my Gy. apply (U3 y ndy my); auto. eapply get_Some_key; exact Gy.
            - intros Lv. apply Qe. intros y my _ Hy. apply (Lv y my). exact Hy. }
          exists n1. split; auto. unfold expand_node, mbind at 1, getst at 1. rewrite G, Et.
          assert (P : pop_node x n = (graph_del_node n x, Ok nd)) by (unfold pop_node, mbind, getst; rewrite G; auto).
          unfold mbind at 1. rewrite P, Em. exact E1.
        - exists n. split; [unfold expand_node, mbind at 1, getst at 1; rewrite G, Et; auto|]. split; [|eapply expandable_tail; eauto].
          apply expanded_skip; auto. intros nd' G'. assert (nd' = nd) by congruence. subst. rewrite Et. exact Logic.I.
        - destruct X as (_ & _ & X). specialize (X x nd (or_introl eq_refl) G). rewrite Et in X. destruct X. }
      destruct Step as (n1 & E1 & X1 & X2).
      destruct (IH n1) as (n' & E' & X'); auto.
      { apply X1. }
      { intros y Iy. destruct (key_get _ _ (I y (or_intror Iy))) as (ndy & Gy). destruct (xp_keep X1 y Gy) as (nd' & G' & _).
        - left. intros [->|[]]. auto.
        - eapply get_Some_key; eauto. }
      exists n'. cbn [foreach]. unfold mbind at 1. rewrite E1. split; auto. eapply expanded_trans; eauto.
  Qed.
End Round.

Section Fuel.
  Context {S : scalar}.
  Implicit Types (n m : tn (tval S)).
  Lemma expandable_more : forall k n l, expandable k n l -> expandable (Datatypes.S k) n l.
  Proof.
    induction k as [|k IH]; intros n l (A & B & C); (split; [exact A|split; [exact B|]]); intros x nd Ix G; specialize (C x nd Ix G).
    - destruct (n_val nd) as [[d|m|ts|c v]|]; auto. destruct C.
    - destruct (n_val nd) as [[d|m|ts|c v]|]; auto. destruct C as (C1 & C2 & C3). split; [exact C1|]. split; [exact C2|]. apply IH. exact C3.
  Qed.
  Lemma expandable_le k k' n l : k <= k' -> expandable k n l -> expandable k' n l.
  Proof. induction 1; auto. intros X. apply expandable_more; auto. Qed.

  Lemma int_named_here k n : regular n -> int_named k n ->
    distinct n /\ separate n (keys (nodes n)) /\ sortable n (keys (nodes n)).
  Proof.
    intros R I. assert (Z : forall x, In x (keys (nodes n)) \/ In x (keys (edges n)) -> exists z, x = NI z).
    { intros x. rewrite <- in_app_iff. destruct k; apply I. }
    split; [|split].
    - split; [|split; [|split]].
      + intros J. destruct (Z (NT [])); auto. discriminate.
      + intros J. destruct (Z (NT [])); auto. discriminate.
      + intros a b Ia Ib. destruct (Z a) as (u & ->); auto. destruct (Z b) as (v & ->); auto. simpl. congruence.
      + intros a b Ia Ib. destruct (Z a) as (u & ->); auto. destruct (Z b) as (v & ->); auto. simpl. congruence.
    - intros x m Ix _. destruct (Z x) as (u & ->); auto. split.
      + intros y Iy (r & Q). destruct (Z y) as (v & ->); auto. simpl in Q. congruence.
      + intros e r Ie ->. destruct (Z (NT (tup (NI u) ++ r))); auto. discriminate.
    - assert (L : forall a, net_leg n (keys (nodes n)) a -> exists z, a = NI z).
      { intros a (x & nd & m & _ & G & _ & J). apply Z. right. eapply (wf_legs (proj1 (rg_inv R))); eauto. }
      exists (keys (nodes n)). split; auto. intros a b La Lb. destruct (L a La) as (u & ->), (L b Lb) as (v & ->). simpl. eauto.
  Qed.
  Lemma int_named_expandable : forall k n, regular n -> int_named k n -> expandable k n (keys (nodes n)).
  Proof.
    induction k as [|k IH]; intros n R I; destruct (int_named_here _ R I) as (_ & A & B); destruct I as [_ I];
      (split; [exact A|split; [exact B|]]); intros x nd Ix G; specialize (I x nd G); auto.
    destruct (n_val nd) as [[d|m|ts|c v]|]; auto. destruct I as [Rm Im]. split; [exact Rm|]. split; [apply (int_named_here _ Rm Im)|].
    apply IH; auto.
  Qed.
End Fuel.
