(** The tensors of single operations contract. *)
From Verif Require Import Base Scalar NetSpec Sums NetAlg ModelArray ModelTN TNInv TNOps TNSpec TNMerge TNDelta TNValue
  TNValue2 TNExact TNEdit ModelVal ModelOps OpsSpec OpsProofs OpsValue ModelNest NestSpec NestExp NestSound ModelContract ModelDeep DeepSpec
  CoreVal ModelCircuit CircStep CircCtrl CircDens CircDensOp CoreSpec CoreNet.
Set Implicit Arguments.
Local Open Scope nat_scope.

Lemma starts_refl_tup x y : starts x y -> length (tup x) = length (tup y) -> tup y = tup x.
Proof.
  intros [r E] L. rewrite E in *. rewrite app_length in L. destruct r; [rewrite app_nil_r in *; auto|simpl in L; lia].
Qed.

Section CoreOps.
  Context {S : scalar}.
  Notation tval := (tval S).
  Notation net := (tn tval).
  Implicit Types (n m : net) (e x y : name) (v w : tval).

  Definition gv (ins : list bool) v : Prop := core v /\ thin v /\ grounded ins v.

  (** names that contract() does not invent *)
  Definition named v : Prop :=
    match v with
    | VNet n => (forall x, In x (keys (nodes n)) -> gate_name x) /\
        ((forall e, In e (keys (edges n)) -> int_name e) \/ (forall e, In e (keys (edges n)) -> exists l, e = NT l /\ 2 < length l))
    | _ => True
    end.
  Lemma gv_well ins v : gv ins v -> named v -> well v /\ forall n, inside v n -> no_hash n.
  Proof.
    intros (C & N & _) Nm. destruct v as [[d|]|n| |]; try (inversion C; fail).
    - split; [constructor|]. intros n H. inversion H.
    - destruct Nm as [Nn Ne]. split.
      + apply (@core_well S n C); [|eapply core_few; eauto]. split.
        * intros x Ix. destruct (Nn x Ix) as [(t & qs & ->)|(s & -> & N1 & _)]; simpl; eexists _, _; (split; [reflexivity|]); unfold star; congruence.
        * right. intros e He k Hk.
          assert (Ie : In e (keys (edges n))).
          { inversion C as [|? R]; subst. destruct He as [I|(x & nd & m & _ & G & _ & I)]; [apply (wf_opens (proj1 (rg_inv R))); auto|].
            apply (wf_legs (proj1 (rg_inv R)) x _ G); auto. }
          split.
          -- intros I. unfold delta_edge in I. destruct Ne as [Ne|Ne]; destruct (Ne _ I) as [z Q]; [discriminate|]. destruct Q as [Q L]. injection Q as <-. simpl in L. lia.
          -- intros x m (nd & G & _) [r E]. apply get_Some_key in G. unfold delta_edge in E. cbn [tup] in E.
             destruct (Nn x G) as [(t & qs & ->)|(s & -> & _)]; cbn in E; [congruence|]. injection E as E _. destruct Ne as [Ne|Ne]; destruct (Ne e Ie) as [z Q]; [congruence|].
             destruct Q as [Q _]; congruence.
      + intros m H. inversion H as [?|? u ? L I| |]; subst.
        * intros x Ix. destruct (Nn x Ix) as [(t & qs & ->)|(s & -> & _ & N1)]; simpl; eexists _, _; (split; [reflexivity|]); congruence.
        * destruct (core_leaf L C) as (d & ->). inversion I.
  Qed.

  Lemma core_ints n : regular n -> (forall x, In x (keys (nodes n)) -> exists s, x = NS s) ->
    (forall e, In e (keys (edges n)) -> int_name e) ->
    (forall P, dead P n -> forall e, P e -> exists o, P o /\ In o (opens n)) ->
    (forall x nd v, get x (nodes n) = Some nd -> n_val nd = Some v -> core v) -> core (VNet n).
  Proof.
    intros R Nn Ne Lv Inn. constructor; auto.
    - repeat split.
      + intros I. destruct (Nn _ I) as (s & Q). discriminate.
      + intros I. destruct (Ne _ I) as (s & Q). discriminate.
      + intros a b Ia Ib E. destruct (Nn _ Ia) as (s & ->), (Nn _ Ib) as (s' & ->). simpl in E. congruence.
      + intros a b Ia Ib E. destruct (Ne _ Ia) as (s & ->), (Ne _ Ib) as (s' & ->). simpl in E. congruence.
    - intros x m Ix _. destruct (Nn _ Ix) as (s & ->). split.
      + intros y Iy [r E]. destruct (Nn _ Iy) as (s' & ->). simpl in E. congruence.
      + intros e r Ie E. destruct (Ne _ Ie) as (z & ->). discriminate.
    - assert (HL : forall a, net_leg n (keys (nodes n)) a -> int_name a).
      { intros a (x & nd & m & _ & G & _ & I). apply Ne. apply (wf_legs (proj1 (rg_inv R)) x _ G); auto. }
      intros a b Ha Hb. apply int_lt; auto.
  Qed.

  (** arrays and wirings *)
  Lemma data_gv ins d : plain_data ins d -> gv ins d /\ named d.
  Proof.
    unfold plain_data. destruct d as [[d|]|n| |]; try tauto.
    - intros _. split; [|simpl; auto]. split; [constructor|]. split; [constructor|simpl; auto].
    - intros (R & Nn & Nf & Ne). split; [|split; [rewrite Nn; intros x []|left; intros e Ie; apply Ne; auto]]. assert (Gr : grounded ins (VNet n)).
      { intros P [D1 _ _] e Pe. exists e. split; auto. apply Ne, D1, Pe. }
      split; [|split; auto].
      + apply core_ints; auto.
        * rewrite Nn. intros x [].
        * intros e Ie. apply Ne; auto.
        * intros P D e Pe. destruct (Gr P D e Pe) as (o & Po & I). exists o. split; auto. eapply in_combine_r; eauto.
        * intros x nd v G. rewrite Nn in G. discriminate.
      + constructor; [apply no_fixes_one; auto|]. intros x nd v G. rewrite Nn in G. discriminate.
  Qed.
  Lemma conj_gv ins v v' : v_conj v = Ok v' -> gv ins v -> gv ins v'.
  Proof. intros E (C & N & G). destruct (conj_core E C) as (C' & N' & _). split; auto. split; auto. eapply conj_grounded; eauto. Qed.

  (** a controlled operation with an array: every edge is at the array *)
  Lemma ctrl_gv sh a v ins : tval_shape (VTensor (S := S) (Some a)) = twos (count is_ctrl sh + count is_in sh + count is_out sh) ->
    ctrl_net sh (VTensor (Some a)) = Ok v -> gv ins v /\ named v.
  Proof.
    intros Sh E. destruct (@ctrl_net_spec S sh _ Sh) as (v' & E' & _ & Shv & _). rewrite E in E'. injection E' as <-.
    set (N := count is_ctrl sh + count is_in sh + count is_out sh) in *. rewrite twos_dims in Sh. set (dims := repeat 2 N) in *.
    unfold ctrl_net, build in E. rewrite (@mbind_eq _ _ _ _ _ _ _ _ (@add_first S (NS "TC") _ false dims Sh)) in E.
    cbn [modify] in E. injection E as <-.
    pose proof (@add_first S (NS "TC") _ false dims Sh) as A. set (n := one_net (NS "TC") (VTensor (Some a)) false dims) in *.
    set (n' := with_opens n (ctrl_edges sh)) in *.
    assert (Ke : keys (edges n) = range_names (length dims)) by apply keys_grid.
    assert (Eo : incl (ctrl_edges sh) (keys (edges n))).
    { intros e Ie. cbn [tval_shape] in Shv. unfold twos in Shv. injection Shv as Shv.
      assert (Q : edge_dim n e = Some 2).
      { assert (I2 : In (edge_dim n' e) (map (edge_dim n') (opens n'))) by (apply in_map; auto). change (opens n') with (ctrl_edges sh) in I2. rewrite Shv in I2.
        apply repeat_spec in I2. exact I2. }
      unfold edge_dim in Q. destruct (get e (edges n)) as [ed|] eqn:G; [|discriminate]. eapply get_Some_key; eauto. }
    assert (Nf : no_fixes n').
    { intros e. unfold is_fixed. cbn [edges n' with_opens]. change (edges n) with (grid dims).
      destruct (get e (grid dims)) as [ed|] eqn:G; auto. apply get_In in G. unfold grid, new_edges in G. apply in_map_iff in G as ([y d] & Q & _).
      injection Q as _ <-. reflexivity. }
    assert (Dm : map (edim n) (range_names (length dims)) = map Some dims) by (apply edim_grid; auto).
    assert (Nd : forall x nd, get x (nodes n') = Some nd -> nd = Node (range_names (length dims)) false (Some (VTensor (Some a)))).
    { intros x nd G. cbn in G. destruct (eqb x (NS "TC")); congruence. }
    assert (De : forall P, dead P n' -> forall e, ~ P e).
    { intros P [D1 D2 D3] e Pe. destruct (D1 e Pe) as [Ie _]. eapply (D2 (NS "TC") _ e); eauto; [reflexivity|discriminate|].
      simpl. rewrite <- Ke. exact Ie. }
    split; [split; [|split]|].
    - apply core_ints.
      + constructor.
        * apply open_inv; auto. eapply add_node_inv; [exact A| |apply (bs_inv base_empty)]. simpl. apply range_names_NN.
        * intros e ed fx G F. specialize (Nf e). unfold is_fixed in Nf. rewrite G, F in Nf. discriminate.
        * intros x nd G. rewrite (Nd x nd G). exists (VTensor (Some a)). split; auto. cbn [n_legs].
          change (edim n') with (edim n). rewrite Dm. split; auto.
          intros e Ie. apply in_map with (f := edim n) in Ie. rewrite Dm in Ie. apply in_map_iff in Ie as (d & <- & _). discriminate.
        * intros e Ie. assert (I2 := in_map (edge_dim n') _ _ Ie). cbn [tval_shape] in Shv. unfold twos in Shv. injection Shv as Shv.
          change (opens n') with (ctrl_edges sh) in I2. rewrite Shv in I2. apply repeat_spec in I2. change (edim n' e = Some 2) in I2. rewrite I2. discriminate.
      + intros x Ix. cbn in Ix. destruct Ix as [<-|[]]. eauto.
      + intros e Ie. change (In e (keys (edges n))) in Ie. rewrite Ke in Ie. apply in_map_iff in Ie as (i & <- & _). exists (Z.of_nat i); auto.
      + intros P D e Pe. destruct (De P D e Pe).
      + intros x nd v G V. rewrite (Nd x nd G) in V. injection V as <-. constructor.
    - constructor; [apply no_fixes_one; auto|]. intros x nd v G V. rewrite (Nd x nd G) in V. injection V as <-. constructor.
    - intros P D e Pe. destruct (De P D e Pe).
    - split.
      + intros x Ix. cbn in Ix. destruct Ix as [<-|[]]. right. exists "TC"%string. repeat split; discriminate.
      + left. intros e Ie. change (In e (keys (edges n))) in Ie. rewrite Ke in Ie. apply in_map_iff in Ie as (i & <- & _). exists (Z.of_nat i); auto.
  Qed.

  Lemma combine_dup (ins : list bool) (l1 l2 : list name) b e : length ins = length l1 ->
    In (b, e) (combine ins l1) \/ In (b, e) (combine ins l2) -> In (b, e) (combine (ins ++ ins) (l1 ++ l2)).
  Proof. intros L H. rewrite (combine_app) by auto. rewrite in_app_iff. auto. Qed.

  (** a pure operation: the tensor and its conjugate *)
  Lemma pure_density_gv ins v k v' : gv ins v -> tval_shape v = twos k -> length ins = k ->
    pure_density v = Ok v' -> gv (ins ++ ins) v' /\ named v'.
  Proof.
    intros G Sh Li E. unfold pure_density in E. rewrite Sh in E. cbn [twos bind] in E. destruct (v_conj v) as [cj|] eqn:Ec; [|discriminate].
    cbn [bind] in E. rewrite repeat_length in E. pose proof (conj_gv Ec G) as Gc. assert (Shc := proj1 (v_conj_value _ Ec)). rewrite Sh in Shc.
    set (l1 := range_names k) in *. set (l2 := map (fun i => NI (Z.of_nat i)) (seq k k)) in *.
    assert (L1 : length l1 = k) by apply range_names_length.
    assert (L2 : length l2 = k) by (unfold l2; rewrite map_length, seq_length; auto).
    assert (E12 : range_names (2 * k) = l1 ++ l2).
    { unfold l1, l2, range_names. rewrite <- map_app. f_equal. rewrite <- seq_app. f_equal. lia. }
    assert (NNl : forall e, In e (l1 ++ l2) -> int_name e).
    { rewrite <- E12. intros e I. apply in_map_iff in I as (i & <- & _). exists (Z.of_nat i); auto. }
    destruct (@base_add S empty_tn (NS "TP") l1 v) as (n1 & A1 & B1 & Ad1); auto using base_empty.
    { intros I. destruct (NNl NN) as [z Q]; [apply in_app_iff; auto|discriminate]. }
    { rewrite L1; auto. }
    destruct (@base_add S n1 (NS "~TP") l2 cj) as (n2 & A2 & B2 & Ad2); auto.
    { rewrite (ad_nodes Ad1). simpl. intros [Q|[]]; discriminate. }
    { intros I. destruct (NNl NN) as [z Q]; [apply in_app_iff; auto|discriminate]. }
    { rewrite L2; auto. }
    unfold build in E. rewrite (@mbind_eq _ _ _ _ _ _ n1 (NS "TP")) in E by exact A1.
    rewrite (@mbind_eq _ _ _ _ _ n1 n2 (NS "~TP")) in E by exact A2. rewrite E12 in E. cbn [modify] in E. injection E as <-.
    set (n' := with_opens n2 (l1 ++ l2)).
    assert (Ke : forall e, In e (keys (edges n2)) <-> In e (l1 ++ l2)).
    { intros e. rewrite (ad_edges Ad2), (ad_edges Ad1), in_app_iff. simpl. tauto. }
    assert (Nd : forall x nd w, get x (nodes n') = Some nd -> n_val nd = Some w -> (exists s, x = NS s) /\ gv ins w).
    { intros x nd w Gx V. change (get x (nodes n2) = Some nd) in Gx. destruct (nodes_added x Ad2 Gx V) as [Gx1|(-> & -> & _)]; [|eauto].
      destruct (nodes_added x Ad1 Gx1 V) as [Gx0|(-> & -> & _)]; [discriminate|eauto]. }
    assert (Gr : grounded (ins ++ ins) (VNet n')).
    { intros P D e Pe. cbn [opens n' with_opens].
      assert (D' : dead P n2) by (destruct D as [D1 D2 D3]; constructor; auto).
      destruct Gc as (_ & _ & Gc). destruct (dead_added ins e Ad2 D' Gc Pe) as [Ie|(e' & Pe' & I)].
      - pose proof (dead_before B1 Ad2 D') as D1. destruct G as (_ & _ & G).
        destruct (dead_added ins e Ad1 D1 G (conj Pe Ie)) as [[]|(e' & Pe' & I)]. exists e'. split; [apply Pe'|]. apply combine_dup; auto. lia.
      - exists e'. split; auto. apply combine_dup; auto. lia. }
    assert (Nx : forall x, In x (keys (nodes n')) -> x = NS "TP" \/ x = NS "~TP").
    { intros x Ix. cbn [n' with_opens nodes] in Ix. rewrite (ad_nodes Ad2), (ad_nodes Ad1) in Ix. simpl in Ix. intuition. }
    split.
    2:{ split.
        - intros x Ix. right. destruct (Nx x Ix) as [-> | ->]; eexists; (split; [reflexivity|split; discriminate]).
        - left. intros e Ie. apply NNl, Ke. exact Ie. }
    split; [|split; auto].
    - apply core_ints.
      + apply base_regular; auto. intros e Ie. apply Ke; auto.
      + intros x Ix. destruct (Nx x Ix) as [-> | ->]; eauto.
      + intros e Ie. apply NNl, Ke. exact Ie.
      + intros P D e Pe. destruct (Gr P D e Pe) as (o & Po & I). exists o. split; auto. eapply in_combine_r; eauto.
      + intros x nd w Gx V. apply (Nd x nd w Gx V).
    - constructor; [apply no_fixes_one|intros x nd w Gx V; apply (Nd x nd w Gx V)]. intros e. change (is_fixed n2 e = false). rewrite (ad_fixed Ad2), (ad_fixed Ad1). auto.
  Qed.
End CoreOps.
