(** Expanding keeps edges fixed to at most one value. *)
From Verif Require Import Base Scalar NetSpec ModelArray ModelTN TNInv TNOps TNSpec TNHist TNValue ModelVal ModelNest NestSpec.
Set Implicit Arguments.
Local Open Scope nat_scope.

Section Thin.
  Context {S : scalar}.
  Notation tval := (tval S).
  Notation net := (tn tval).
  Implicit Types (n m : net) (e x y : name).

  Definition thin n : Prop := forall e ed fx, In (e, ed) (edges n) -> e_fix ed = Some fx -> length fx <= 1.
  Definition same_vals n n' : Prop := forall x nd', In (x, nd') (nodes n') -> exists nd, In (x, nd) (nodes n) /\ n_val nd = n_val nd'.
  Lemma in_set {B} (k : name) (v : B) l p : In p (set k v l) -> In p l \/ p = (k, v).
  Proof.
    induction l as [|[a b] l IH]; simpl; [intros [J|[]]; auto|]. destruct (eqb_spec k a) as [->|]; simpl; intros [J|J]; auto. apply IH in J as [J|J]; auto.
  Qed.
  Lemma in_del {B} (k : name) (l : list (name * B)) p : In p (del k l) -> In p l.
  Proof. unfold del. intros I. apply filter_In in I. tauto. Qed.
  Definition kept n n' : Prop := (thin n -> thin n') /\ same_vals n n'.
  Lemma kp_refl n : kept n n. Proof. split; auto. intros x nd G. eauto. Qed.
  Lemma kp_trans a b c : kept a b -> kept b c -> kept a c.
  Proof.
    intros [A1 A2] [B1 B2]. split; auto. intros x nd G. destruct (B2 x nd G) as (nd1 & G1 & V1). destruct (A2 x nd1 G1) as (nd2 & G2 & V2).
    exists nd2. split; auto. congruence.
  Qed.
  Notation M := (M (T := tval)).
  Lemma kp_bind {A B} (m : M A) (f : A -> M B) : always kept m -> (forall a, always kept (f a)) -> always kept (mbind m f).
  Proof. apply always_bind. apply kp_trans. Qed.
  Lemma kp_foreach {X} (f : X -> M unit) l : (forall a, always kept (f a)) -> always kept (foreach f l).
  Proof. intros. apply always_foreach; auto. apply kp_refl. apply kp_trans. Qed.
  Lemma kp_ret {A} (a : A) : always kept (ret a). Proof. intros n; apply kp_refl. Qed.
  Lemma kp_raise {A} (q : exn) : always kept (raise (A := A) q). Proof. intros n; apply kp_refl. Qed.
  Lemma kp_lift {A} (r : res A) : always kept (lift r). Proof. intros n; destruct r; apply kp_refl. Qed.
  Lemma kp_get {A} (f : net -> M A) : (forall n, always kept (f n)) -> always kept (let! n := getst in f n).
  Proof. intros Hf n. apply Hf. Qed.
  Lemma kp_same f : (forall n, edges (f n) = edges n) -> (forall n, nodes (f n) = nodes n) -> always kept (modify f).
  Proof. intros H1 H2 n. cbn [modify fst]. split; [intros T e ed fx; rewrite H1; apply T|intros x nd; rewrite H2; eauto]. Qed.
  Lemma kp_set n e ed : (thin n -> forall fx, e_fix ed = Some fx -> length fx <= 1) -> kept n (with_edges n (set e ed (edges n))).
  Proof.
    intros H. split; [|intros x nd G; eauto]. intros T a ad fx. simpl. intros I. apply in_set in I as [I|Q]; [eapply T; eauto|]. injection Q as <- <-. auto.
  Qed.
  Lemma kp_update_dimension dic : always kept (update_dimension (T := tval) dic).
  Proof.
    apply kp_foreach. intros [e d]. unfold update_dim1. intros n. cbv [mbind getst]. cbn [fst snd]. destruct (get e (edges n)) as [ed|] eqn:G; [|apply kp_refl].
    destruct (e_dim ed); [destruct d; [destruct (_ =? _)|]; apply kp_refl|]. apply kp_set. simpl. intros T fx F. eapply T; eauto. apply get_In; eauto.
  Qed.
  Lemma kp_add_edge e d : always kept (add_edge (T := tval) e d).
  Proof.
    unfold add_edge. apply kp_get. intros n. apply kp_bind.
    { destruct e; try apply kp_ret. apply kp_bind; [apply kp_same; auto|]. intros; apply kp_ret. }
    intros a. apply kp_bind; [|intros; apply kp_ret].
    destruct (has a (edges n)); [destruct d; [apply kp_update_dimension|apply kp_ret]|].
    intros k. split; [|intros x nd G; eauto]. intros T b bd fx. simpl. rewrite in_app_iff. intros [I|[Q|[]]]; [eapply T; eauto|]. injection Q as <- <-. discriminate.
  Qed.
  Lemma few_filter (l m : list nat) : NoDup l -> length m <= 1 -> length (filter (fun v => mem v m) l) <= 1.
  Proof.
    intros N L. assert (Hl : length (filter (fun v => mem v m) l) <= length m); [|lia].
    apply NoDup_incl_length; [apply NoDup_filter; auto|]. intros a Ia. apply filter_In in Ia as [_ Ia]. apply mem_In; auto.
  Qed.
  Lemma filter_le {A} (p : A -> bool) l : length (filter p l) <= length l.
  Proof. induction l as [|a l IH]; simpl; auto. destruct (p a); simpl; lia. Qed.
  Lemma kp_fix n e vals : (thin n -> length vals <= 1) -> kept n (fst (fix_edge (T := tval) e vals false n)).
  Proof.
    intros L. unfold fix_edge. cbv [mbind getst]. destruct (get e (edges n)) as [ed|] eqn:G; [|apply kp_refl].
    destruct (e_dim ed) as [d|]; [|apply kp_refl]. destruct (forallb _ _); [|apply kp_refl].
    destruct (e_fix ed) as [old|] eqn:E; apply kp_set; simpl; intros T fx Q; injection Q as <-.
    - pose proof (T e ed old (get_In _ _ G) E). eapply Nat.le_trans; [apply filter_le|auto].
    - apply few_filter; auto. apply seq_NoDup.
  Qed.
  Lemma kp_merge1 (m e : name) : always kept (merge1 (T := tval) m e).
  Proof.
    intros n. unfold merge1. unfold mbind at 1, getst at 1. destruct (get e (edges n)) as [ed|] eqn:G; [|apply kp_refl].
    assert (A : forall k, (thin n -> forall fx, e_fix ed = Some fx -> length fx <= 1) -> k = n ->
      kept n (fst ((match e_fix ed with Some fx => fix_edge m fx false | None => ret tt end) k))).
    { intros k H ->. destruct (e_fix ed) as [fx|]; [apply kp_fix; auto|apply kp_refl]. }
    specialize (A n (fun T fx F => T e ed fx (get_In _ _ G) F) eq_refl). unfold mbind at 1.
    destruct ((match e_fix ed with Some fx => fix_edge m fx false | None => ret tt end) n) as [n1 [[]|q]]; [|exact A]. cbn [fst] in A.
    eapply kp_trans; [exact A|]. apply kp_bind; [apply kp_same; auto|]. intros _.
    destruct (eqb e m); [apply kp_ret|]. intros k. cbn [modify fst]. split; [|intros x nd Gx; eauto].
    intros T a ad fx. simpl. intros I. apply in_del in I. eapply T; eauto.
  Qed.
  Lemma kp_last_dim es : forall d, always kept (last_dim (T := tval) es d).
  Proof.
    induction es as [|e r IH]; intros d; cbn [last_dim]; [apply kp_ret|].
    apply kp_get. intros n. destruct (get e (edges n)); [apply IH|apply kp_raise].
  Qed.
  Lemma vals_legs f x n : same_vals n (map_legs f n x).
  Proof.
    unfold map_legs, set_legs. destruct (get x (nodes n)) as [nd|] eqn:G; [|intros y d; eauto].
    intros y d. simpl. intros I. apply in_set in I as [I|Q]; [eauto|]. injection Q as -> ->. exists nd. split; auto. apply get_In; auto.
  Qed.
  Lemma vals_fold f l : forall n, same_vals n (fold_left (map_legs f) l n).
  Proof.
    induction l as [|x l IH]; intros n y nd G; simpl in G; [eauto|]. destruct (IH _ _ _ G) as (nd1 & G1 & V1).
    destruct (vals_legs f x n y _ G1) as (nd2 & G2 & V2). exists nd2. split; auto. congruence.
  Qed.
  Lemma kp_merge_edges es mt : always kept (merge_edges (T := tval) es mt).
  Proof.
    unfold merge_edges. apply kp_bind; [apply kp_last_dim|]. intros d. apply kp_bind.
    { assert (KK : forall mt0, always kept (let! n := getst in if has mt0 (edges n) then ret mt0 else add_edge (T := tval) mt0 None)).
      { intros mt0. apply kp_get. intros k. destruct (has mt0 (edges k)); [apply kp_ret|apply kp_add_edge]. }
      destruct mt; try apply KK. apply kp_lift. }
    intros m. apply kp_bind; [apply kp_update_dimension|]. intros _. apply kp_get. intros n.
    apply kp_bind; [apply kp_foreach; intros; apply kp_merge1|]. intros _.
    apply kp_bind.
    { intros k. cbn [modify fst]. split; [intros T e ed fx; unfold merge_legs; rewrite fold_legs_edges; apply T|apply vals_fold]. }
    intros _. apply kp_bind; [apply kp_same; auto|]. intros _. apply kp_get. intros k.
    destruct (forallb _ _); [apply kp_ret|apply kp_raise].
  Qed.

  Variable ord : list name -> list name.
  Lemma few_kept n n' : kept n n' -> few n -> few n'.
  Proof.
    intros [K1 K2] [F1 F2]. constructor; [apply K1; exact F1|]. intros x nd m I V. destruct (K2 x nd I) as (nd0 & I0 & V0). eapply F2; eauto. congruence.
  Qed.
  Lemma kp_join conn c : always kept (join ord conn c).
  Proof. unfold join. apply kp_bind; [apply kp_lift|]. intros to. apply kp_bind; [apply kp_merge_edges|]. intros; apply kp_ret. Qed.
  Lemma put_edges_thin : forall (l acc : list (name * edge)),
    (forall e ed fx, In (e, ed) l -> e_fix ed = Some fx -> length fx <= 1) ->
    (forall e ed fx, In (e, ed) acc -> e_fix ed = Some fx -> length fx <= 1) ->
    forall e ed fx, In (e, ed) (fold_left put_edge l acc) -> e_fix ed = Some fx -> length fx <= 1.
  Proof.
    induction l as [|[e0 ed0] l IH]; intros acc H1 H2; simpl; auto. apply IH; [intros; eapply H1; simpl; eauto|].
    intros e ed fx I F. unfold put_edge in I. cbn [fst snd] in I. apply in_set in I as [I|Q]; [eapply H2; eauto|]. injection Q as <- ->.
    destruct (get e acc) as [o|] eqn:G; simpl in F.
    - destruct (e_fix ed0) as [f0|] eqn:F0; [injection F as <-; eapply H1; simpl; eauto|eapply H2; eauto]. apply get_In; eauto.
    - eapply H1; simpl; eauto.
  Qed.
  Lemma put_nodes_in : forall (l acc : list (name * node tval)) p, In p (fold_left (@put_node S) l acc) -> In p l \/ In p acc.
  Proof.
    induction l as [|[y d] l IH]; intros acc p G; simpl in G; auto. destruct (IH _ _ G) as [I|G']; [simpl; auto|].
    unfold put_node in G'. cbn [fst snd] in G'. apply in_set in G' as [G'|G']; simpl; auto.
  Qed.
  Lemma few_attr x m : few m -> few (add_attribute x m).
  Proof.
    intros [F1 F2]. constructor.
    - intros e ed fx. unfold add_attribute. cbn [edges]. apply put_edges_thin; [|intros ? ? ? []].
      intros a ad gx I F. apply in_map_iff in I as ([b bd] & Q & I). injection Q as _ <-. cbn [snd] in F. eapply F1; eauto.
    - intros y nd m' I V. unfold add_attribute in I. cbn [nodes] in I. apply put_nodes_in in I as [I|[]].
      apply in_map_iff in I as ([b bd] & Q & I). injection Q as _ <-. cbn [n_val snd] in V. eapply F2; eauto.
  Qed.
  Lemma few_union n m : few n -> few m -> few (graph_union n m).
  Proof.
    intros [N1 N2] [F1 F2]. constructor.
    - intros e ed fx. unfold graph_union. cbn [edges]. apply put_edges_thin; auto.
    - intros y nd m' I V. unfold graph_union in I. cbn [nodes] in I. apply put_nodes_in in I as [I|I]; eauto.
  Qed.
  Lemma few_copy n : few n -> few (copy_tn n).
  Proof. intros [F1 F2]. constructor; auto. Qed.
  Lemma few_expand : forall fuel xs n, few n -> few (fst (expand ord fuel xs n)).
  Proof.
    induction fuel as [|fuel IH]; intros xs n F; [exact F|]. cbn [expand]. unfold mbind at 1, getst at 1.
    generalize (match xs with None => keys (nodes n) | Some l => l end) as l. intros l. revert n F.
    induction l as [|x l IHl]; intros n F; [exact F|]. cbn [foreach]. unfold mbind at 1.
    assert (A : few (fst (expand_node ord (expand ord fuel None) x n))).
    { clear IHl. unfold expand_node, mbind at 1, getst at 1. destruct (get x (nodes n)) as [nd|] eqn:G; [|exact F].
      destruct (n_val nd) as [[d|m|ts|c w]|] eqn:V; try exact F.
      unfold mbind at 1, pop_node at 1, mbind at 1, getst at 1. rewrite G. unfold mbind at 1, modify at 1, ret at 1.
      assert (F0 : few (graph_del_node n x)).
      { destruct F as [F1 F2]. constructor; auto. intros y d m' I. simpl in I. apply in_del in I. eauto. }
      assert (Fm : few m) by (destruct F as [F1 F2]; eapply F2; [apply get_In; exact G|exact V]).
      pose proof (IH None (copy_tn m) (few_copy Fm)) as F1. destruct (expand ord fuel None (copy_tn m)) as [m1 [[]|q]]; [|exact F0]. cbn [fst] in F1.
      unfold mbind at 1, modify at 1. pose proof (few_union F0 (few_attr x F1)) as F2.
      apply (few_kept (n := graph_union (graph_del_node n x) (add_attribute x m1))); auto.
      apply kp_bind; [apply kp_lift|]. intros ps. apply kp_foreach. intros c. apply kp_join. }
    destruct (expand_node ord (expand ord fuel None) x n) as [n1 [[]|q]]; [|exact A]. apply IHl. exact A.
  Qed.
End Thin.
