(** * Contracting a part of a network preserves its value *)
From Verif Require Import Base Scalar NetSpec NetAlg Sums ModelArray ModelTN TNInv TNOps TNDelta TNSpec TNValue TNExact ModelContract ContractNet ContractTemplate
  ContractMain ContractMerge ContractFlat TNDeltaValue ModelVal ModelNest NestSpec NestEnc NestExp NestSound ModelDeep DeepSpec DeepProofs OrderSpec ModelOrder OrderProofs OrderNet DeepFind ModelPart PartSpec.
Set Implicit Arguments.
Open Scope nat_scope.

Section Part.
  Context {S : scalar}.
  Notation tval := (tval S).
  Notation net := (tn tval).
  Implicit Types (n m : net) (v : tval).
  Variable ord : list name -> list name.
  Hypothesis Hord : forall l, Permutation (ord l) l.

  Definition put n x (nd : node tval) (t : tval) : net := with_nodes n (set x (Node (n_legs nd) (n_mut nd) (Some t)) (nodes n)).

  Lemma swap_value n x nd t t' o : regular n -> get x (nodes n) = Some nd -> n_val nd = Some t ->
    (forall idx, in_shape (map (size n) (n_legs nd)) idx = true -> tval_value t' idx = tval_value t idx) ->
    tn_value (@tval_value S) (put n x nd t') o = tn_value (@tval_value S) n o.
  Proof.
    intros R G V H. pose proof (proj1 (rg_inv R)) as W. unfold tn_value. apply net_value_terms_ext.
    - change (tn_dom (put n x nd t')) with (tn_dom n). unfold tn_dom, keys. rewrite map_map. apply (wf_edges W).
    - change (tn_dom (put n x nd t')) with (tn_dom n). unfold tn_terms, put. cbn [nodes with_nodes].
      assert (Rfl : forall l, Forall2 (same_on (tn_dom n)) (map (node_term (@tval_value S)) l) (map (node_term (@tval_value S)) l)).
      { induction l; simpl; constructor; auto. split; auto. }
      assert (Q : forall l, get x l = Some nd -> Forall2 (same_on (tn_dom n))
        (map (node_term (@tval_value S)) (set x (Node (n_legs nd) (n_mut nd) (Some t')) l)) (map (node_term (@tval_value S)) l)); [|apply Q; auto].
      induction l as [|[y d] r IH]; [discriminate|]. cbn [get set]. destruct (eqb_spec x y) as [->|N]; intros Gx; cbn [map].
      + injection Gx as ->. constructor; auto. split; auto. intros s Rs. cbn [node_term entry legs fst snd n_val n_legs]. rewrite V.
        apply H. apply in_shape_map. intros e Ie. destruct (rg_sized R y G) as (t0 & Et & Sh & Kn).
        destruct (key_get _ _ (wf_legs W _ _ G Ie)) as (ed & Ge). specialize (Kn e Ie).
        assert (J : In (s e) (edge_values ed)).
        { apply (Rs e). unfold tn_dom. apply in_map_iff. exists (e, ed). split; auto. apply get_In; auto. }
        unfold size, edim in *. rewrite Ge in *. unfold edge_values in J. destruct (e_fix ed) as [fx|] eqn:Qf.
        * destruct (wf_fix W _ Ge Qf) as (d' & -> & F). rewrite Forall_forall in F. auto.
        * destruct (e_dim ed) as [d'|]; [|congruence]. apply in_seq in J. lia.
      + constructor; auto. split; auto.
  Qed.
  Lemma put_regular n x nd t t' : regular n -> get x (nodes n) = Some nd -> n_val nd = Some t ->
    tval_shape t' = tval_shape t -> regular (put n x nd t').
  Proof.
    intros R G V Sh. destruct (rg_sized R x G) as (t0 & Et & Sht & Kn). assert (t0 = t) by congruence. subst t0.
    assert (E : update_node x t' n = (put n x nd t', Ok tt)).
    { apply (@update_node_same tval _ x t' nd n); auto; [|exact (eq_trans Sh Sht)]. intros e Ie. eapply (wf_legs (proj1 (rg_inv R))); eauto. }
    constructor.
    - split; [eapply update_node_wf; eauto; apply R|apply R].
    - apply R.
    - intros y ndy Gy. unfold put in Gy. cbn [nodes with_nodes] in Gy. rewrite get_set in Gy. destruct (eqb_spec y x) as [->|N].
      + injection Gy as <-. exists t'. cbn [n_val n_legs]. split; auto. split; [exact (eq_trans Sh Sht)|exact Kn].
      + apply (rg_sized R y Gy).
    - apply R.
  Qed.

  Lemma times_NoDup e (l : list name) : NoDup l -> times e l <= 1.
  Proof.
    induction l as [|a l IH]; intros ND; [unfold times; simpl; lia|]. inversion ND as [|? ? Na Nl]; subst. rewrite times_cons. destruct (eqb_spec e a) as [->|N]; [|apply IH; auto].
    destruct (Nat.eq_dec (times a l) 0) as [->|Q]; [lia|]. exfalso. apply Na. apply times_In. lia.
  Qed.

  Lemma ready_well n : ready n -> well (VNet n).
  Proof. intros (R & (k & X) & T & U & _ & L). apply well_net with (k := k); auto. eapply tidy_sound; eauto. Qed.

  (** ** the part taken out can be contracted when the network can, if the networks in it are straight *)
  Lemma part_well n xs es os ys fs m : ready n -> request n xs es os -> (forall l, os = Some l -> NoDup l) ->
    subtn ord n xs es os = Ok (ys, fs, m) -> ready m.
  Proof.
    intros (R & (k & X) & Td & Un & St & Lf) Rq No E. destruct (@subtn_ok S ord Hord n xs es os R Rq) as (ys' & fs' & m' & E' & Sp & Cy & Cf & Cb).
    rewrite E in E'. injection E' as <- <- <-. pose proof (splits_regular R Sp) as Rm. pose proof (proj1 (rg_inv R)) as W.
    assert (Nd : forall y nd, get y (nodes m) = Some nd -> In y ys /\ exists nd0, get y (nodes n) = Some nd0 /\ n_legs nd = n_legs nd0 /\ n_val nd = n_val nd0).
    { intros y nd G. pose proof (sp_content Sp y) as Q. rewrite G in Q. simpl in Q. destruct (mem_spec y ys) as [J|J]; [|discriminate].
      destruct (get y (nodes n)) as [nd0|]; [|discriminate]. simpl in Q. unfold content in Q. injection Q as Q1 Q2. split; auto. exists nd0. auto. }
    assert (Hd : forall y q, held m y q -> held n y q).
    { intros y q (nd & G & V). destruct (Nd y nd G) as (_ & nd0 & G0 & _ & Qv). exists nd0. split; auto. congruence. }
    assert (Kn : forall y, In y (keys (nodes m)) -> In y (keys (nodes n))).
    { intros y Iy. destruct (key_get _ _ Iy) as (nd & G). destruct (Nd y nd G) as (_ & nd0 & G0 & _). eapply get_Some_key; eauto. }
    assert (Gn : forall e ed, get e (edges m) = Some ed -> get e (edges n) = Some ed).
    { intros e ed G. rewrite <- (sp_get Sp); auto. eapply get_Some_key; eauto. }
    assert (Ke : forall e, In e (keys (edges m)) -> In e (keys (edges n))).
    { intros e Ie. destruct (key_get _ _ Ie) as (ed & G). eapply get_Some_key; eauto. }
    assert (Att : forall e y, In e fs -> attached n y e -> attached m y e).
    { intros e y Ie (nd & G & Il). destruct (sp_fs Sp e Ie) as (_ & _ & Iy). assert (J : In y ys) by (apply Iy; exists nd; auto).
      pose proof (sp_content Sp y) as Q. rewrite (proj2 (mem_In y ys) J), G in Q. destruct (get y (nodes m)) as [nd1|] eqn:G1; [|discriminate].
      simpl in Q. unfold content in Q. injection Q as Q1 Q2. exists nd1. split; auto. rewrite Q1. auto. }
    assert (Lf' : forall v, leaf m v -> leaf n v).
    { intros v [y nd G V P|y q Hq L].
      - destruct (Nd y nd G) as (_ & nd0 & G0 & _ & Qv). eapply leaf_here; [exact G0| |exact P]. congruence.
      - eapply leaf_in; [apply Hd; exact Hq|exact L]. }
    destruct Td as (Lv & Ov & Ls & Tm).
    split; auto. split; [exists k|split; [|split; [|split]]].
    - assert (Y : separate m (keys (nodes m)) /\ sortable m (keys (nodes m))).
      { split.
        - assert (Se : separate n (keys (nodes n))) by (destruct k; apply X). intros x q Ix Hx. destruct (Se x q (Kn x Ix) (Hd x q Hx)) as [A B].
          split; [intros y Iy; apply A; auto|intros e r Ie; apply B; auto].
        - exists []. split; [intros x q _ Hx; right; apply (St x); auto|intros a b (x & _ & _ & [] & _)]. }
      assert (Z : forall x nd, In x (keys (nodes m)) -> get x (nodes m) = Some nd -> match n_val nd with
        | Some (VNet q) => match k with O => False | Datatypes.S k => regular q /\ distinct q /\ expandable k q (keys (nodes q)) end
        | Some (VView _ _) => False | _ => True end).
      { intros x nd Ix G. destruct (Nd x nd G) as (_ & nd0 & G0 & _ & ->). destruct k; destruct X as (_ & _ & X); apply (X x nd0); auto. }
      destruct k; (split; [apply Y|split; [apply Y|exact Z]]).
    - split; [|split; [|split]].
      + intros e ed G. assert (Ie : In e (keys (edges m))) by (eapply get_Some_key; eauto). apply (sp_keys Sp) in Ie as [Ie|Ie]; auto.
        right. destruct (Lv e ed (Gn e ed G)) as [J|[J|(y & J)]]; auto; [destruct (sp_fs Sp e Ie); tauto|]. right. exists y. apply Att; auto.
      + intros e ed fx G Q Nop. assert (Ie : In e (keys (edges m))) by (eapply get_Some_key; eauto). apply (sp_keys Sp) in Ie as [Ie|Ie]; [|tauto].
        apply (Ov e ed); auto. apply (sp_fs Sp e Ie).
      + intros x nd q _ G V. left. apply (St x), Hd. exists nd. auto.
      + intros x q _ Hx. apply (Tm x); [|apply Hd; auto]. destruct (Hd x q Hx) as (nd0 & G0 & _). eapply get_Some_key; eauto.
    - destruct Un as [U1 U2]. split; [intros x Ix; apply U1; auto|].
      destruct xs as [xs|]; [|destruct es as [es|]].
      1,2: left; split; [intros x q Hx; apply (St x); auto|]; intros e L; exfalso;
        destruct Cb as (_ & C1 & C2); [congruence|]; assert (ND : NoDup (opens m)) by (destruct os as [l|]; [rewrite (C1 l); auto|auto]);
        pose proof (times_NoDup e ND); lia.
      assert (m = copy_tn n) as ->.
      { unfold subtn in E. destruct (sub_parts ord n None None) as [p|]; [|discriminate]. simpl in E. injection E as _ _ <-. reflexivity. }
      exact U2.
    - intros x q Hx. apply (St x). auto.
    - auto.
  Qed.

  Theorem partial_contract_ok memory find n xs es os x :
    regular n -> request n xs es os -> (In x (keys (nodes n)) -> chosen n xs es x) ->
    (forall ys fs m, subtn ord n xs es os = Ok (ys, fs, m) -> well (VNet m) /\ finds_for ord memory find (VNet m)) ->
    exists ys fs m a n' k, subtn ord n xs es os = Ok (ys, fs, m) /\ array_of (VNet m) a /\ replaced n xs es x m a n' /\
      forall fuel, k <= fuel -> partial_contract ord memory find fuel xs es os x n = (n', Ok tt).
  Proof.
    intros R Rq Nx Hw. destruct (@subtn_ok S ord Hord n xs es os R Rq) as (ys & fs & m & E & Sp & Cy & Cf & Cb).
    destruct (@splits_encapsulate S n ys fs m x R Sp) as (n1 & A & R1 & Ne); [intros J; apply Cy; auto|].
    assert (En : encapsulate ord xs es os x n = (n1, Ok (x, m))).
    { unfold encapsulate, mbind at 1, getst. unfold mbind at 1, lift. rewrite E. exact A. }
    assert (Val : forall o, tn_value (@tval_value S) n1 o = tn_value (@tval_value S) n o).
    { intros o. eapply nested_value; eauto; apply R. }
    pose proof (splits_regular R Sp) as Rm.
    destruct (Hw ys fs m E) as [Wm Ff]. destruct (deep_array Hord Wm Ff) as (k & a & [Sh Ent] & Hk).
    assert (W1 : wf n1) by apply (proj1 (rg_inv R1)).
    set (nd := Node (opens m) true (Some (VNet m))).
    assert (G : get x (nodes n1) = Some nd).
    { apply In_get; [apply (wf_nodes W1)|]. eapply Permutation_in; [symmetry; apply (ne_nodes Ne)|]. left. reflexivity. }
    assert (Sx : tval_shape (VTensor (Some a)) = tval_shape (VNet m)) by (rewrite Sh; reflexivity).
    destruct (rg_sized R1 x G) as (t0 & Et & Sht & Kn). injection Et as <-.
    assert (U : update_node x (VTensor (Some a)) n1 = (put n1 x nd (VTensor (Some a)), Ok tt)).
    { apply (@update_node_same tval _ x (VTensor (Some a)) nd n1); auto; [|exact (eq_trans Sx Sht)]. intros e Ie. eapply (wf_legs W1); eauto. }
    exists ys, fs, m, a, (put n1 x nd (VTensor (Some a))), k. split; auto. split; [split; auto|]. split.
    2:{ intros fuel L. unfold partial_contract, mbind at 1. rewrite En. unfold mbind at 1, lift. cbn [snd fst]. rewrite (Hk fuel L). exact U. }
    assert (Gr : forall y, y <> x -> get y (nodes n1) = if mem y ys then None else get y (nodes n)).
    { intros y Ny. rewrite (@perm_get _ _ _ y (wf_nodes W1) (ne_nodes Ne)). cbn [get]. rewrite (proj2 (eqb_neq _ _) Ny). apply get_removed. }
    assert (Gh : forall e, get e (edges n1) = if mem e fs then None else get e (edges n)).
    { intros e. rewrite (@perm_get _ _ _ e (wf_edges W1) (ne_edges Ne)). apply get_hidden. }
    constructor.
    - apply put_regular with (t := VNet m); auto.
    - intros o. rewrite <- Val. apply swap_value with (t := VNet m); auto.
      intros idx Hi. apply Ent. assert (Q : map Some (nd_shape a) = map (edim n1) (n_legs nd)).
      { rewrite Sh in Sht. injection Sht as Sht. exact Sht. }
      replace (map (size n1) (n_legs nd)) with (nd_shape a) in Hi; auto. clear -Q. revert Q. generalize (nd_shape a).
      induction (n_legs nd) as [|e l IH]; intros [|d r] Q; try discriminate Q; auto. simpl in Q. injection Q as Q1 Q2.
      simpl. rewrite (IH r Q2). unfold size. rewrite <- Q1. reflexivity.
    - exact (ne_opens Ne).
    - unfold put. cbn [nodes with_nodes]. rewrite get_set, eqb_refl. reflexivity.
    - intros N. apply Cb; auto.
    - intros y Ny Hy. unfold put. cbn [nodes with_nodes]. rewrite get_set, (proj2 (eqb_neq _ _) Ny), Gr by auto. rewrite (proj2 (mem_In y ys)); auto. apply Cy; auto.
    - intros y Ny Hy. unfold put. cbn [nodes with_nodes]. rewrite get_set, (proj2 (eqb_neq _ _) Ny), Gr by auto. rewrite (proj2 (mem_false_iff y ys)); auto. rewrite Cy; auto.
    - intros e He. unfold put. cbn [edges with_nodes]. rewrite Gh, (proj2 (mem_In e fs)); auto. apply Cf; auto.
    - intros e He. unfold put. cbn [edges with_nodes]. rewrite Gh, (proj2 (mem_false_iff e fs)); auto. rewrite Cf; auto.
    - intros y. rewrite <- Cy. destruct (mem_spec y ys); auto.
    - intros e. rewrite <- Cf. destruct (mem_spec e fs); auto.
  Qed.

  (** ** and what it leaves can be contracted further *)
  Lemma ready_after n xs es os x ys fs m a n' : ready n -> request n xs es os -> (In x (keys (nodes n)) -> chosen n xs es x) ->
    good_name n x -> subtn ord n xs es os = Ok (ys, fs, m) -> replaced n xs es x m a n' -> ready n'.
  Proof.
    intros (R & (k & X) & Td & Un & St & Lf) Rq Nx [(c0 & r0 & Q0 & N0 & _) Nm2] E [R' _ Op New _ Gone Kept Mv Sy Dy De].
    destruct (@subtn_ok S ord Hord n xs es os R Rq) as (ys' & fs' & m' & E' & Sp & Cy & Cf & Cb).
    rewrite E in E'. injection E' as <- <- <-.
    assert (Nd : forall y nd, get y (nodes n') = Some nd -> y <> x -> get y (nodes n) = Some nd /\ ~ chosen n xs es y).
    { intros y nd G Ny. destruct (Dy y) as [H|H]; [rewrite Gone in G; auto; discriminate|]. rewrite <- Kept; auto. }
    assert (Hd : forall y q, held n' y q -> y <> x /\ held n y q).
    { intros y q (nd & G & V). assert (Ny : y <> x) by (intros ->; rewrite New in G; injection G as <-; discriminate V).
      split; auto. exists nd. split; auto. apply Nd; auto. }
    assert (Ed : forall e ed, get e (edges n') = Some ed -> get e (edges n) = Some ed /\ ~ moved n xs es e).
    { intros e ed G. destruct (De e) as [H|H]; [rewrite Mv in G; auto; discriminate|]. rewrite <- Sy; auto. }
    assert (Kn : forall y, In y (keys (nodes n')) -> y = x \/ In y (keys (nodes n))).
    { intros y Iy. destruct (key_get _ _ Iy) as (nd & G). destruct (eq_dec_of_eqb y x) as [->|Ny]; auto. right. eapply get_Some_key. apply (Nd y nd); auto. }
    assert (Ke : forall e, In e (keys (edges n')) -> In e (keys (edges n))).
    { intros e Ie. destruct (key_get _ _ Ie) as (ed & G). eapply get_Some_key. apply Ed; eauto. }
    destruct Td as (Lv & Ov & Ls & Tm).
    split; auto. split; [exists k|split; [|split; [|split]]].
    - assert (Y : separate n' (keys (nodes n')) /\ sortable n' (keys (nodes n'))).
      { split.
        - assert (Se : separate n (keys (nodes n))) by (destruct k; apply X). intros y q Iy Hy. destruct (Hd y q Hy) as [Ny Hy'].
          assert (In y (keys (nodes n))) by (destruct Hy' as (nd & G & _); eapply get_Some_key; eauto).
          destruct (Se y q) as [A B]; auto. split; [|intros e r Ie; apply B; auto].
          intros z Iz Sz. destruct (Kn z Iz) as [->|Iz']; auto. symmetry. eapply Nm2; eauto.
        - exists []. split; [intros y q _ Hy; right; apply (St y), Hd; auto|intros c d (y & _ & _ & [] & _)]. }
      assert (Z : forall y nd, In y (keys (nodes n')) -> get y (nodes n') = Some nd -> match n_val nd with
        | Some (VNet q) => match k with O => False | Datatypes.S k => regular q /\ distinct q /\ expandable k q (keys (nodes q)) end
        | Some (VView _ _) => False | _ => True end).
      { intros y nd Iy G. destruct (eq_dec_of_eqb y x) as [->|Ny]; [rewrite New in G; injection G as <-; exact I|].
        destruct (Nd y nd G Ny) as [G0 _]. destruct k; destruct X as (_ & _ & X); apply (X y nd); auto; eapply get_Some_key; eauto. }
      destruct k; (split; [apply Y|split; [apply Y|exact Z]]).
    - split; [|split; [|split]].
      + intros e ed G. destruct (Ed e ed G) as [G0 Nm]. rewrite Op. destruct (Lv e ed G0) as [J|[J|(y & Ay)]]; auto.
        destruct (Dy y) as [Hy|Hy].
        * assert (Ie : In e (opens m) \/ In e (opens n)).
          { destruct xs as [xs|]; [|destruct es as [es|]].
            1,2: left; destruct Cb as (Cb & _); [congruence|]; apply Cb; split; eauto.
            right. destruct (mem_spec e (opens n)) as [J|J]; auto. exfalso. apply Nm. split; auto. eapply get_Some_key; eauto. }
          destruct Ie as [Ie|Ie]; auto. right. right. exists x. eexists. split; [exact New|exact Ie].
        * right. right. exists y. destruct Ay as (nd & Gy & Il). exists nd. split; auto. rewrite Kept; auto.
          intros ->. apply Hy, Nx. eapply get_Some_key; eauto.
      + intros e ed fx G Q Nop. rewrite Op in Nop. apply (Ov e ed); auto. apply Ed; auto.
      + intros y nd q _ G V. left. apply (St y), Hd. exists nd. auto.
      + intros y q _ Hy. destruct (Hd y q Hy) as [_ Hy']. apply (Tm y); auto. destruct Hy' as (nd & G & _). eapply get_Some_key; eauto.
    - destruct Un as [U1 U2]. split; [intros y Iy; destruct (Kn y Iy) as [->|]; eauto|].
      left. split; [intros y q Hy; apply (St y), Hd; auto|]. intros e L. rewrite Op in L.
      assert (F : fresh n e) by (destruct U2 as [[_ U2]|U2]; [auto|apply U2; left; apply times_In; lia]).
      intros i Hi. rewrite Op in Hi. destruct (F i Hi) as [F1 F2]. split; [intros J; apply F1; auto|].
      intros y q Hy. destruct (Hd y q Hy). apply (F2 y q); auto.
    - intros y q Hy. apply (St y), Hd; auto.
    - intros v [y nd G V P|y q Hy L].
      + destruct (eq_dec_of_eqb y x) as [->|Ny]; [rewrite New in G; injection G as <-; injection V as <-; constructor|].
        apply Lf. eapply leaf_here; [apply (Nd y nd G Ny)|exact V|exact P].
      + apply Lf. eapply leaf_in; [apply Hd; exact Hy|exact L].
  Qed.

  (** ** part after part, with the default order finder *)
  Lemma moved_closed n xs es os e : regular n -> request n xs es os -> moved n xs es e -> ~ In e (opens n).
  Proof.
    intros R Rq. destruct (@subtn_ok S ord Hord n xs es os R Rq) as (ys & fs & m & E & Sp & Cy & Cf & Cb). rewrite <- Cf.
    intros J. apply (sp_fs Sp e J).
  Qed.
  Lemma replaced_shape n xs es os x m a n' : regular n -> request n xs es os -> replaced n xs es x m a n' ->
    tval_shape (VNet n') = tval_shape (VNet n).
  Proof.
    intros R Rq Rp. cbn [tval_shape]. rewrite (rp_opens Rp). f_equal. apply map_ext_in. intros e Ie. unfold edge_dim.
    rewrite (rp_stays Rp); auto. intros M. eapply moved_closed; eauto.
  Qed.
  Lemma replaced_array n xs es os x m a n' b : regular n -> request n xs es os -> replaced n xs es x m a n' ->
    array_of (VNet n') b -> array_of (VNet n) b.
  Proof.
    intros R Rq Rp [Sh V]. split; [rewrite <- Sh; symmetry; eapply replaced_shape; eauto|]. intros idx Hi. rewrite (V idx Hi). apply (rp_value Rp).
  Qed.
  Lemma part_leaf n xs es os ys fs m : regular n -> request n xs es os -> subtn ord n xs es os = Ok (ys, fs, m) ->
    (forall v, leaf m v -> leaf n v) /\ (forall y, In y (keys (nodes m)) -> In y (keys (nodes n))).
  Proof.
    intros R Rq E. destruct (@subtn_ok S ord Hord n xs es os R Rq) as (ys' & fs' & m' & E' & Sp & _).
    rewrite E in E'. injection E' as <- <- <-.
    assert (Nd : forall y nd, get y (nodes m) = Some nd -> exists nd0, get y (nodes n) = Some nd0 /\ n_val nd = n_val nd0).
    { intros y nd G. pose proof (sp_content Sp y) as Q. rewrite G in Q. simpl in Q. destruct (mem_spec y ys) as [J|J]; [|discriminate].
      destruct (get y (nodes n)) as [nd0|]; [|discriminate]. simpl in Q. unfold content in Q. injection Q as Q1 Q2. exists nd0. auto. }
    split.
    - intros v [y nd G V P|y q (nd & G & V) L]; destruct (Nd y nd G) as (nd0 & G0 & Qv).
      + eapply leaf_here; [exact G0| |exact P]. congruence.
      + eapply leaf_in; [exists nd0; split; [exact G0|rewrite <- Qv; exact V]|exact L].
    - intros y Iy. destruct (key_get _ _ Iy) as (nd & G). destruct (Nd y nd G) as (nd0 & G0 & _). eapply get_Some_key; eauto.
  Qed.
  Lemma inside_sub n m : (forall v, leaf m v -> leaf n v) -> all_no_hash n -> no_hash m -> all_no_hash m.
  Proof.
    intros L A H q I. inversion I as [|? v ? Lv Iv| |]; subst; auto. apply A. eapply inside_leaf; [apply L; exact Lv|exact Iv].
  Qed.

  (** disjoint groups of nodes *)
  Lemma groups_parts_ok : forall gs n, regular n ->
    NoDup (concat (map fst gs)) -> incl (concat (map fst gs)) (keys (nodes n)) ->
    NoDup (map snd gs) -> (forall x, In x (map snd gs) -> ~ In x (keys (nodes n)) /\ good_name n x) ->
    (forall g e, In g gs -> boundary n (Some (fst g)) None e -> is_fixed n e = false) ->
    parts_ok n (map (fun g => (Some (fst g), None, None, snd g)) gs).
  Proof.
    induction gs as [|[ys x] gs IH]; intros n R ND I NDx Nx Hb; [exact Logic.I|].
    cbn [map concat fst snd] in *. apply NoDup_app_iff in ND as (ND1 & ND2 & Dj). inversion NDx as [|? ? Nx' NDx']; subst.
    destruct (Nx x (or_introl eq_refl)) as [Nxn Gx]. cbn [parts_ok].
    assert (Rq : request n (Some ys) None None).
    { constructor; try discriminate.
      - intros l Q. injection Q as <-. split; auto. intros a Ia. apply I, in_app_iff; auto.
      - intros _ e B. apply (Hb (ys, x)); auto. left; auto. }
    split; auto. split; [discriminate|]. split; [intros J; exfalso; auto|]. split; auto.
    intros m a n' [R' _ Op New Lg Gone Kept Mv Sy Dy De]. simpl chosen in *.
    assert (Nd : forall y nd, get y (nodes n') = Some nd -> y <> x -> get y (nodes n) = Some nd /\ ~ In y ys).
    { intros y nd G Ny. destruct (Dy y) as [H|H]; [rewrite Gone in G; auto; discriminate|]. rewrite <- Kept; auto. }
    assert (Nxg : forall g y, In g gs -> In y (fst g) -> y <> x /\ ~ In y ys).
    { intros g y Ig Iy. assert (In y (concat (map fst gs))) by (apply in_concat; exists (fst g); split; auto; apply in_map; auto).
      split; [intros ->; apply Nxn, I, in_app_iff; auto|]. intros J. apply (Dj y); auto. }
    apply IH; auto.
    - intros y Iy. assert (In y (keys (nodes n))) by (apply I, in_app_iff; auto). apply in_concat in Iy as (l & Il & Iy).
      apply in_map_iff in Il as (g & <- & Ig). destruct (Nxg g y Ig Iy) as [N1 N2]. destruct (key_get _ _ H) as (nd & G).
      rewrite <- (Kept y N1 N2) in G. eapply get_Some_key; eauto.
    - intros y Iy. assert (Ny : y <> x) by (intros ->; auto). destruct (Nx y (or_intror Iy)) as [N1 [G1 G2]]. split.
      + intros J. destruct (key_get _ _ J) as (nd & G). apply N1. eapply get_Some_key. apply (Nd y nd); auto.
      + split; auto. intros z q (nd & G & V). apply G2 with (q := q). exists nd. split; auto. apply Nd; auto.
        intros ->. rewrite New in G. injection G as <-. discriminate V.
    - intros g e Ig [(y & Iy & Ay) Nm]. destruct (Nxg g y Ig Iy) as [Nyx Nyz].
      assert (At : forall z, z <> x -> attached n' z e -> attached n z e) by (intros z Nz (nd & G & J); exists nd; split; auto; apply (Nd z nd); auto).
      assert (B : boundary n (Some (fst g)) None e).
      { split; [exists y; auto|]. intros (Q1 & Q2 & Q3). apply Nm. split; [|split].
        - exists y. auto.
        - rewrite Op. auto.
        - intros z Az. destruct (eq_dec_of_eqb z x) as [->|Nz]; [|apply Q3; auto].
          exfalso. destruct Az as (nd & G & J). rewrite New in G. injection G as <-. cbn [n_legs] in J.
          apply Lg in J as [(z & Iz & Az) _]; [|discriminate]. apply (Nxg g z); auto. }
      specialize (Hb g e (or_intror Ig) B). unfold is_fixed in *. destruct (De e) as [M|M]; [rewrite (Mv e M); auto|rewrite (Sy e M); auto].
  Qed.

  Section Steps.
    Variables (memory : Z) (sp : ostep -> opath) (cost : net -> Z).
    Hypothesis Hsp : good_paths sp.
    Hypothesis Hmem : forall n, (cost n * 48 <= memory * 2 ^ 30)%Z.
    Notation find := (finder sp cost).

    Lemma part_step n xs es os x : ready n -> all_no_hash n -> request n xs es os -> (forall l, os = Some l -> NoDup l) ->
      (In x (keys (nodes n)) -> chosen n xs es x) -> good_name n x ->
      exists ys fs m a n' k, subtn ord n xs es os = Ok (ys, fs, m) /\ array_of (VNet m) a /\ replaced n xs es x m a n' /\
        ready n' /\ all_no_hash n' /\ forall fuel, k <= fuel -> partial_contract ord memory find fuel xs es os x n = (n', Ok tt).
    Proof.
      intros Rn H Rq No Nx Nm. pose proof (proj1 Rn) as R.
      destruct (@partial_contract_ok memory find n xs es os x R Rq Nx) as (ys & fs & m & a & n' & k & E & A & Rp & Ek).
      { intros ys fs m E. pose proof (ready_well (part_well Rn Rq No E)) as W. split; auto. apply suits_default; auto.
        destruct (part_leaf R Rq E) as [Lf Kn]. apply (inside_sub Lf); auto. intros y Iy. apply (H n); [constructor|auto]. }
      exists ys, fs, m, a, n', k. split; auto. split; auto. split; auto. pose proof (ready_after Rn Rq Nx Nm E Rp) as Rn'. split; auto. split; auto.
      destruct Rp as [R' _ Op New _ Gone Kept Mv Sy Dy De].
      assert (Nd : forall y nd, get y (nodes n') = Some nd -> y <> x -> get y (nodes n) = Some nd).
      { intros y nd G Ny. destruct (Dy y) as [Hy|Hy]; [rewrite Gone in G; auto; discriminate|]. rewrite <- Kept; auto. }
      intros q I. inversion I as [|? v ? [y nd G V P|y q' (nd & G & V) L] Iv| |]; subst.
      - intros y Iy. destruct (key_get _ _ Iy) as (nd & G). destruct (eq_dec_of_eqb y x) as [->|Ny].
        + destruct Nm as ((c & r & Q & N1 & N2) & _). eauto.
        + apply (H n); [constructor|]. eapply get_Some_key; eauto.
      - destruct (eq_dec_of_eqb y x) as [->|Ny].
        + rewrite New in G. injection G as <-. injection V as <-. inversion Iv.
        + apply H. eapply inside_leaf; [eapply leaf_here; [apply Nd; eauto|exact V|exact P]|exact Iv].
      - destruct (eq_dec_of_eqb y x) as [->|Ny]; [rewrite New in G; injection G as <-; discriminate V|].
        apply H. eapply inside_leaf; [eapply leaf_in; [exists nd; split; [apply Nd; eauto|exact V]|exact L]|exact Iv].
    Qed.
    Theorem contract_parts_ok : forall l n, ready n -> all_no_hash n -> parts_ok n l ->
      exists n' k, (forall fuel, k <= fuel -> contract_parts ord memory find fuel l n = (n', Ok tt)) /\
        ready n' /\ all_no_hash n' /\ (forall o, tn_value (@tval_value S) n' o = tn_value (@tval_value S) n o) /\ opens n' = opens n /\
        tval_shape (VNet n') = tval_shape (VNet n).
    Proof.
      induction l as [|[[[xs es] os] x] l IH]; intros n Rn H Hl; [exists n, 0; auto 10|].
      cbn [parts_ok] in Hl. destruct Hl as (Rq & No & Nx & Nm & Hl).
      destruct (part_step Rn H Rq No Nx Nm) as (ys & fs & m & a & n1 & k1 & E & A & Rp & Rn1 & H1 & Ek).
      destruct (IH n1 Rn1 H1 (Hl _ _ _ Rp)) as (n' & k & Ek' & Rn' & H' & V & Op & Sh). exists n', (max k1 k). split; [|split; [|split; [|split; [|split]]]]; auto.
      - intros fuel L. cbn [contract_parts foreach]. unfold mbind at 1. rewrite Ek by lia. apply Ek'. lia.
      - intros o. rewrite V. apply (rp_value Rp).
      - rewrite Op. apply (rp_opens Rp).
      - rewrite Sh. eapply replaced_shape; eauto. apply Rn.
    Qed.
    Theorem contract_after l n : ready n -> all_no_hash n -> parts_ok n l ->
      exists n' k a, array_of (VNet n) a /\ forall fuel, k <= fuel ->
        contract_parts ord memory find fuel l n = (n', Ok tt) /\ contract_val ord memory find fuel (VNet n') = Ok a.
    Proof.
      intros Rn H Hl. destruct (@contract_parts_ok l n Rn H Hl) as (n' & k & Ek & Rn' & H' & V & Op & Sh).
      pose proof (ready_well Rn') as W'. destruct (deep_array Hord W' (@suits_default S ord Hord memory sp cost _ W' Hsp Hmem H')) as (k2 & a & [A1 A2] & Ec).
      exists n', (max k k2), a. split.
      - split; [congruence|]. intros idx Hi. rewrite (A2 idx Hi). apply V.
      - intros fuel L. split; [apply Ek; lia|apply Ec; lia].
    Qed.
  End Steps.
End Part.
