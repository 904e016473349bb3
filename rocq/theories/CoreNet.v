(** The networks a converter builds, one node at a time: arrays and networks of arrays on edges of dimension 2. *)
From Verif Require Import Base Scalar NetSpec Sums NetAlg ModelArray ModelTN TNInv TNOps TNSpec TNMerge TNDelta TNValue
  TNValue2 TNExact TNEdit ModelVal ModelOps OpsSpec OpsProofs OpsValue ModelNest NestSpec NestExp NestSound ModelContract ModelDeep DeepSpec
  CoreVal ModelCircuit CircStep CircDens.
Set Implicit Arguments.
Local Open Scope nat_scope.

Section CoreNet.
  Context {S : scalar}.
  Notation tval := (tval S).
  Notation net := (tn tval).
  Implicit Types (n m : net) (e x y : name) (v w : tval).

  (** a network under construction *)
  Record base n : Prop := {
    bs_inv : inv n;
    bs_fix : fix_nodup n;
    bs_sized : sized n;
    bs_opens : opens n = [];
    bs_dim : forall e, In e (keys (edges n)) -> edim n e = Some 2
  }.
  Lemma base_empty : base empty_tn.
  Proof.
    constructor; auto; [|intros e ed fx G; discriminate|intros x nd G; discriminate|intros e []]. split; [|intros []].
    constructor; simpl; try constructor; try tauto; try discriminate. intros (nd & G & _). discriminate. intros ? [].
  Qed.
  Lemma two_unfixed l e ed : get e (map two_edge l) = Some ed -> e_fix ed = None.
  Proof. intros G. apply get_In in G. apply in_map_iff in G as (y & Q & _). injection Q as _ <-. auto. Qed.
  Lemma base_regular n os : base n -> incl os (keys (edges n)) -> regular (with_opens n os).
  Proof.
    intros [I F Sz O D] Io. constructor; auto.
    - apply open_inv; auto.
    - intros e Ie. change (edim n e <> None). rewrite D; [discriminate|auto].
  Qed.
  (** [n'] is [n] with the node [x], attached to [legs], some of which may be new edges *)
  Record adds n x (legs : list name) v n' : Prop := {
    ad_nodes : nodes n' = nodes n ++ [(x, Node legs true (Some v))];
    ad_new : ~ In x (keys (nodes n));
    ad_edges : forall e, In e (keys (edges n')) <-> In e (keys (edges n)) \/ In e legs;
    ad_fixed : forall e, is_fixed n' e = is_fixed n e;
    ad_one : fix_one n -> fix_one n'
  }.
  Lemma base_add n x legs v : base n -> ~ In x (keys (nodes n)) -> ~ In NN legs -> tval_shape v = twos (length legs) ->
    exists n', add_node x (Some legs) v false n = (n', Ok x) /\ base n' /\ adds n x legs v n'.
  Proof.
    intros [I F Sz O D] Nx NL Sh. destruct (@add_node_two S x v n legs Nx NL D Sh) as (Hk & Hd & E).
    set (n1 := with_edges n _) in *. set (n' := plus_node' n1 x legs true v false) in *.
    exists n'. split; [exact E|]. split; constructor; auto.
    - eapply add_node_inv; [exact E| |exact I]. exact NL.
    - intros e ed fx G Q. unfold n', n1 in G. cbn in G. rewrite get_app in G. destruct (get e (edges n)) as [ed'|] eqn:Ge.
      + injection G as ->. eapply F; eauto.
      + apply two_unfixed in G. congruence.
    - intros y nd G. unfold n' in G. cbn [nodes plus_node'] in G. rewrite get_app in G.
      destruct (get y (nodes n1)) as [nd'|] eqn:Gy.
      + injection G as <-. destruct (Sz y nd' Gy) as (t & Et & Sht & Kn). exists t. split; auto.
        assert (Q : forall e, In e (n_legs nd') -> edim n' e = edim n e).
        { intros e Ie. assert (Ke : In e (keys (edges n))) by (apply (wf_legs (proj1 I) y _ Gy); auto). rewrite D by auto.
          change (edim n1 e = Some 2). apply Hd, Hk. auto. }
        split; [|intros e Ie; rewrite Q; auto]. rewrite Sht. f_equal. apply map_ext_in. intros e Ie. rewrite Q; auto.
      + simpl in G. destruct (eqb y x); [|discriminate]. injection G as <-. exists v. split; auto. simpl. split.
        * rewrite Sh. unfold twos. f_equal. rewrite (map_ext_in (edim n') (fun _ => Some 2)); [clear; induction legs; simpl; f_equal; auto|].
          intros e Ie. apply Hd, Hk; auto.
        * intros e Ie. change (edim n1 e <> None). rewrite Hd; [discriminate|apply Hk; auto].
    - unfold n', n1. simpl. rewrite O. auto.
    - intros e. unfold n', n1, is_fixed. cbn. rewrite get_app. destruct (get e (edges n)) as [ed|] eqn:Ge; auto.
      destruct (get e (map two_edge _)) as [ed|] eqn:G2; auto. rewrite (two_unfixed _ _ G2). auto.
    - intros H e ed fx G Q. unfold n', n1 in G. cbn in G. rewrite get_app in G. destruct (get e (edges n)) as [ed'|] eqn:Ge.
      + injection G as ->. eapply H; eauto.
      + apply two_unfixed in G. congruence.
  Qed.

  (** a set that is dead after a node is added was dead before *)
  Lemma dead_before n x legs v n' P : base n -> adds n x legs v n' -> dead P n' -> dead (fun e => P e /\ In e (keys (edges n))) n.
  Proof.
    intros B [An Ax Ae Af _] [D1 D2 D3].
    assert (G' : forall y nd, get y (nodes n) = Some nd -> get y (nodes n') = Some nd) by (intros y nd G; rewrite An, get_app, G; auto).
    constructor.
    - intros e [Pe Ie]. split; auto. rewrite <- Af. apply D1; auto.
    - intros y nd e G Nv Ie [Pe _]. eapply (D2 y nd e); eauto.
    - intros y nd m G V. destruct (D3 y nd m (G' y nd G) V) as (Q & DQ & F2). exists Q. split; auto.
      assert (L : forall e, In e (n_legs nd) -> In e (keys (edges n))) by (intros e Ie; apply (wf_legs (proj1 (bs_inv B)) y _ G); auto).
      clear - F2 L. induction F2 as [|e o la lb H1 H2 IH]; constructor.
      + split; [intros [Pe _]; apply H1; auto|intros Qo; split; [apply H1; auto|apply L; simpl; auto]].
      + apply IH. intros e' Ie. apply L; simpl; auto.
  Qed.
  (** an edge of a set that is dead after a node is added was there before, or leads to an input of the node *)
  Lemma dead_added n x legs v n' P ins e : adds n x legs v n' -> dead P n' -> grounded ins v -> P e ->
    In e (keys (edges n)) \/ exists e', P e' /\ In (true, e') (combine ins legs).
  Proof.
    intros [An Ax Ae Af _] D Gr Pe. assert (D' := D). destruct D' as [D1 _ _]. destruct (D1 e Pe) as [Ie _]. apply Ae in Ie as [Ie|Ie]; auto.
    right. eapply (@grounded_leg S n' P x (Node legs true (Some v)) v ins e); eauto. rewrite An, get_app.
    destruct (get x (nodes n)) as [nd|] eqn:G; [exfalso; apply Ax; eapply get_Some_key; eauto|]. simpl. rewrite eqb_refl. auto.
  Qed.
  Lemma nodes_added n x legs v n' y nd w : adds n x legs v n' -> get y (nodes n') = Some nd -> n_val nd = Some w ->
    get y (nodes n) = Some nd \/ (y = x /\ w = v /\ n_legs nd = legs).
  Proof.
    intros [An Ax Ae Af _] G V. rewrite An, get_app in G. destruct (get y (nodes n)) as [nd'|]; [left; congruence|].
    simpl in G. destruct (eqb_spec y x) as [->|]; [|discriminate]. injection G as <-. simpl in V. right. repeat split; congruence.
  Qed.

  (** ** names *)
  Definition int_name x : Prop := exists z, x = NI z.
  Lemma int_lt a b : int_name a -> int_name b -> exists r, name_lt a b = Ok r.
  Proof. intros [x ->] [y ->]. simpl. eauto. Qed.

  (** ** conjugates *)
  Lemma conj_grounded v v' ins : v_conj v = Ok v' -> core v -> grounded ins v -> grounded ins v'.
  Proof.
    intros E C G. destruct (conj_core E C) as (_ & _ & M). destruct v as [d|n| |], v' as [d'|n'| |]; try tauto. destruct M as [Mo Md].
    intros P D. rewrite Mo. apply (G P), Md, D.
  Qed.
End CoreNet.
