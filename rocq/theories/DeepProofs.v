(** contract() of nested objects gives their arrays. *)
From Verif Require Import Base Scalar NetSpec Sums NetAlg ModelArray ArrayProofs ModelTN TNInv TNOps
  TNExact TNSpec TNDelta TNDeltaValue TNValue TNEdit ModelContract ContractFix ContractNet ContractTemplate
  ContractExec ContractMerge ContractMain ContractFlat ModelVal ValProofs ModelNest NestSpec NestSub NestEnc NestJoin NestExp NestSound NestThin ModelDeep DeepSpec DeepZero.
Set Implicit Arguments.
Open Scope nat_scope.

(** one bound for the elements of a list *)
Lemma common_bound {A} (Q : A -> nat -> Prop) (l : list A) :
  (forall a, In a l -> exists k0, forall k, k0 <= k -> Q a k) -> exists k0, forall a k, In a l -> k0 <= k -> Q a k.
Proof.
  induction l as [|a r IH]; intros H.
  - exists 0. intros a k [].
  - destruct IH as (k1 & H1); [intros b Ib; apply H; simpl; auto|]. destruct (H a (or_introl eq_refl)) as (k2 & H2).
    exists (max k1 k2). intros b k [<-|Ib] L; [apply H2; lia|apply H1; auto; lia].
Qed.

Lemma map_Some_inj {A} (a b : list A) : map Some a = map Some b -> a = b.
Proof. revert b. induction a as [|x a IH]; intros [|y b] E; simpl in E; try discriminate; auto. injection E as -> E. f_equal. auto. Qed.

Section Deep.
  Context {S : scalar}.
  Notation tval := (tval S).
  Notation net := (tn tval).
  Implicit Types (n m : net) (x y e : name) (v : tval).
  Add Ring KringDp : (kring S).
  Variable ord : list name -> list name.
  Variable Hord : forall l, Permutation (ord l) l.
  Variable memory : Z.
  Variable find : net -> Z * order * list name.
  Notation contract := (contract_val ord memory find).

  Lemma leaves_bound (P : tval -> nat -> Prop) : forall k n, expandable k n (keys (nodes n)) ->
    (forall v, leaf n v -> exists k0, forall q, k0 <= q -> P v q) ->
    exists k0, forall v q, leaf n v -> k0 <= q -> P v q.
  Proof.
    assert (Step : forall n, (forall v, leaf n v -> exists k0, forall q, k0 <= q -> P v q) ->
      (forall x m, held n x m -> (forall v, leaf m v -> exists k0, forall q, k0 <= q -> P v q) ->
         exists k0, forall v q, leaf m v -> k0 <= q -> P v q) ->
      exists k0, forall v q, leaf n v -> k0 <= q -> P v q).
    { intros n H IH.
      destruct (common_bound (fun x q =>
                  match get x (nodes n) with
                  | Some nd => match n_val nd with
                               | Some (VNet m) => forall v, leaf m v -> P v q
                               | Some (VView _ _) => True
                               | Some v => P v q
                               | None => True end
                  | None => True end) (keys (nodes n))) as (k0 & H0).
      { intros x _. destruct (get x (nodes n)) as [nd|] eqn:G; [|exists 0; auto].
        destruct (n_val nd) as [[d|m|ts|f w]|] eqn:V; try (exists 0; intros; exact I).
        - apply H. eapply leaf_here; eauto. exact I.
        - destruct (IH x m) as (k0 & Hk); [exists nd; auto| |exists k0; intros q L v Hv; auto].
          intros v Hv. apply H. apply leaf_in with (x := x) (m := m); auto. exists nd; auto.
        - apply H. eapply leaf_here; eauto. exact I. }
      exists k0. intros v q Hv L. destruct Hv as [x nd G V Pl|x m (nd & G & V) Hv].
      - specialize (H0 x q (get_Some_key _ _ G) L). rewrite G, V in H0. destruct v; auto; destruct Pl.
      - specialize (H0 x q (get_Some_key _ _ G) L). rewrite G, V in H0. auto. }
    induction k as [|k IHk]; intros n X H; apply Step; auto; intros x m (nd & G & V) Hm; destruct X as (_ & _ & X);
      specialize (X x nd (get_Some_key _ _ G) G); rewrite V in X; [destruct X|apply IHk; auto; apply X].
  Qed.

  Lemma leaf_copy n v : leaf (copy_tn n) v -> leaf n v.
  Proof. intros [x nd G V P|x m H L]; [eapply leaf_here; eauto|eapply leaf_in; eauto]. Qed.

  (** ** sums *)
  Lemma sum_from_ok dims : forall (l : list (nd S)) (a : nd S), nd_shape a = dims -> (forall b, In b l -> nd_shape b = dims) ->
    exists r, sum_from a l = Ok r /\ nd_shape r = dims /\
      forall idx, nd_at r idx = kadd (nd_at a idx) (sumf (fun b => nd_at b idx) l).
  Proof.
    induction l as [|b l IH]; intros a Ea El; cbn [sum_from].
    - exists a. split; auto. split; auto. intros idx. simpl. ring.
    - rewrite Ea, (El b (or_introl eq_refl)), eqb_refl. destruct (IH (nd_add a b)) as (r & E & Sh & V); auto.
      { intros c Ic; apply El; simpl; auto. }
      exists r. split; auto. split; auto. intros idx. rewrite V. simpl. ring.
  Qed.
  Lemma fold_same dims l : (forall s, In s l -> s = Some (map Some dims)) ->
    fold_shape l (Some (map Some dims)) = Ok (Some (map Some dims)).
  Proof.
    assert (Z : zip_shape (map Some dims) (map Some dims) = Some (map Some dims)).
    { induction dims as [|d r IH]; simpl; auto. rewrite IH, Nat.eqb_refl. auto. }
    induction l as [|s l IH]; intros H; simpl; auto. rewrite (H s (or_introl eq_refl)). simpl. rewrite Z. apply IH. intros; apply H; simpl; auto.
  Qed.

  (** ** the value does not depend on entries outside the ranges *)
  Lemma value_ext_on (p q : tval -> list nat -> S) n o : regular n ->
    (forall x nd t idx, get x (nodes n) = Some nd -> n_val nd = Some t ->
       in_shape (map (size n) (n_legs nd)) idx = true -> p t idx = q t idx) ->
    tn_value p n o = tn_value q n o.
  Proof.
    intros R H. pose proof (proj1 (rg_inv R)) as W. unfold tn_value. apply net_value_terms_ext.
    - unfold tn_dom, keys. rewrite map_map. apply (wf_edges W).
    - unfold tn_terms. assert (Q : forall l, incl l (nodes n) -> Forall2 (same_on (tn_dom n)) (map (node_term p) l) (map (node_term q) l)).
      { induction l as [|[x d] r IH]; simpl; intros I; constructor.
        - split; auto. intros s Rs. cbn [node_term entry legs fst snd].
          assert (G : get x (nodes n) = Some d) by (apply In_get; [apply (wf_nodes W)|apply I; simpl; auto]).
          destruct (rg_sized R x G) as (t & Et & Sh & Kn). rewrite Et. apply (H x d t); auto. apply in_shape_map. intros e Ie.
          destruct (key_get _ _ (wf_legs W _ _ G Ie)) as (ed & Ge). specialize (Kn e Ie).
          assert (J : In (s e) (edge_values ed)).
          { apply (Rs e). unfold tn_dom. apply in_map_iff. exists (e, ed). split; auto. apply get_In; auto. }
          unfold size, edim in *. rewrite Ge in *. unfold edge_values in J. destruct (e_fix ed) as [fx|] eqn:Qf.
          + destruct (wf_fix W _ Ge Qf) as (d' & -> & F). rewrite Forall_forall in F. auto.
          + destruct (e_dim ed) as [d'|]; [|congruence]. apply in_seq in J. lia.
        - apply IH. intros y Iy; apply I; simpl; auto. }
      apply Q, incl_refl.
  Qed.

  (** ** the expanded network can be contracted *)
  Lemma times_In_pos e l : 0 < times e l -> In e l.
  Proof. intros H. apply times_In. exact H. Qed.
  Lemma times_le e l : times e l <= length l.
  Proof. induction l as [|a l IH]; [auto|]. rewrite times_cons. simpl. destruct (eqb e a); lia. Qed.
  Lemma expanded_contractible (ev : tval -> res (nd S)) n n1 : regular n -> sound n (keys (nodes n)) -> unclashed n ->
    expanded (copy_tn n) (keys (nodes n)) n1 ->
    (forall v, leaf n v -> exists a, ev v = Ok a /\ array_of v a) ->
    lively n1 /\ (one_value n1 \/ few n) /\
    inv n1 /\ fix_nodup n1 /\ delta_names_free n1 /\ ~ In star (keys (nodes n1)) /\ (forall e, In e (opens n1) -> exists d, edim n1 e = Some d) /\ typed ev n1.
  Proof.
    intros R Td [Un Uf] X Lf.
    destruct (sound_expanded Td X) as [Lv1 Ov1].
    assert (Fl : flat n1).
    { intros x nd G. destruct (xp_nodes X x G) as [P|(Nx & nd0 & G0 & _)]; auto. exfalso. apply Nx. exact (get_Some_key _ _ G0). }
    split; [exact Lv1|]. split; [exact Ov1|]. pose proof (xp_reg X) as R1.
    assert (Fr : forall e, 1 < times e (opens n1) -> fresh n e).
    { intros e L. destruct Uf as [[St Fr]|Fr].
      - apply Fr. rewrite (xp_straight X) in L; [exact L|]. intros x m _ Hx. apply (St x). exact Hx.
      - destruct (xp_old X (fresh n) []) as [_ H]; [intros y []|rewrite app_nil_r; intros a Ha; apply Fr; right; exact Ha|].
        apply H; [intros a Ia; apply Fr; left; exact Ia|]. apply times_In_pos. lia. }
    split; [|split; [|split; [|split; [|split]]]].
    - apply R1.
    - apply R1.
    - intros e k. split.
      + intros L J. destruct (Fr e) with (k := k) as [F1 F2]; [lia| |].
        { assert (Q := f_equal (@length _) (xp_shape X)). rewrite !map_length in Q. change (length (opens n1) = length (opens n)) in Q.
          pose proof (times_le e (opens n1)). lia. } apply (xp_edges X) in J as [J|(x & m & r & _ & Hx & Q)]; auto.
        apply (F2 x m); [exact Hx|]. exists r. rewrite Q. reflexivity.
      + intros _ J. apply (xp_names X) in J as [J|(x & r & Ix & Q)].
        * destruct (Un _ J) as (c & q & Q & N). simpl in Q. apply N. unfold star. congruence.
        * destruct (Un _ Ix) as (c & q & Q' & N). rewrite Q' in Q. simpl in Q. apply N. unfold delta_node in Q. unfold star. congruence.
    - intros J. apply (xp_names X) in J as [J|(x & r & Ix & Q)]; [|discriminate Q].
      destruct (Un _ J) as (c & q & Q & N). simpl in Q. apply N. unfold star in *. congruence.
    - intros e Ie. pose proof (rg_opens R1 e Ie) as Q. destruct (edim n1 e); [eauto|congruence].
    - intros x d G. destruct (rg_sized R1 x G) as (t & Et & Sh & Kn).
      destruct (Lf t) as (a & Ea & Sa & _).
      { apply leaf_copy, (xp_leaf X). eapply leaf_here; eauto. rewrite <- Et. apply (Fl x d G). }
      exists t, a. split; auto. split; auto. congruence.
  Qed.
  Lemma few_cases n : wf n -> few n -> one_value n \/ void n.
  Proof.
    intros W [F _]. destruct (existsb (fun p => match e_fix (snd p) with Some [] => negb (mem (fst p) (opens n)) | _ => false end) (edges n)) eqn:Q.
    - right. apply existsb_exists in Q as ([e ed] & Ie & Q). cbn [fst snd] in Q. exists e, ed. split; [apply In_get; auto; apply (wf_edges W)|].
      destruct (e_fix ed) as [[|v fx]|]; try discriminate. split; auto. intros J. apply mem_In in J. rewrite J in Q. discriminate.
    - left. intros e ed fx G E No. pose proof (F e ed fx (get_In _ _ G) E) as L. destruct fx as [|v [|w fx]]; [|eauto|simpl in L; lia]. exfalso.
      rewrite <- not_true_iff_false in Q. apply Q. apply existsb_exists. exists (e, ed). split; [apply get_In; auto|]. cbn [fst snd]. rewrite E.
      apply negb_true_iff. destruct (mem_spec e (opens n)); tauto.
  Qed.

  Lemma lively_no_idle n : wf n -> lively n -> idle_factor n = 1.
  Proof.
    intros W H. unfold idle_factor.
    assert (Q : forall l, (forall p, In p l -> In p (edges n)) ->
      fold_right (fun p k => if idle n (fst p) then length (edge_values (snd p)) * k else k) 1 l = 1).
    { induction l as [|[e ed] r IH]; intros I; auto. cbn [fold_right fst snd].
      assert (Ge : get e (edges n) = Some ed) by (apply In_get; [apply (wf_edges W)|apply I; simpl; auto]).
      assert (Qi : idle n e = false).
      { unfold idle. rewrite negb_false_iff, !orb_true_iff, mem_In. destruct (H e ed Ge) as [O|[F|(x & d & Gx & L)]]; auto.
        - left; left. unfold fixedb. rewrite Ge. destruct (e_fix ed); congruence.
        - left; right. apply attachedb_adj. exists x. apply (wf_adj W). eauto. }
      rewrite Qi. apply IH. intros p Ip; apply I; simpl; auto. }
    apply Q. auto.
  Qed.

  (** the entries of what [ev] returns, and of the object where it fails *)
  Definition entries (ev : tval -> res (nd S)) v (idx : list nat) : S :=
    match ev v with Ok a => nd_at a idx | Err _ => tval_value v idx end.
  Lemma entries_laws ev : (forall d, ev (VTensor (Some d)) = Ok d) -> @payload_laws S tval (tval_payload S) (entries ev).
  Proof.
    intros H. destruct (tval_laws S) as [A B C D E F]. constructor; auto.
    - unfold entries. cbn [p_one tval_payload] in *. rewrite H. exact B.
    - intros d i j Li Lj. unfold entries. cbn [p_eye tval_payload] in *. rewrite H. apply (D d i j Li Lj).
    - intros bs i L. unfold entries. cbn [p_diag tval_payload] in *. rewrite H. apply (F bs i L).
  Qed.
  Lemma entries_ev ev : (forall d, ev (VTensor (Some d)) = Ok d) -> ev_laws (entries ev) ev.
  Proof.
    intros H. constructor.
    - intros t a E idx _. unfold entries. rewrite E. auto.
    - eexists. split; [apply H|reflexivity].
    - intros d. eexists. split; [apply H|reflexivity].
    - intros bs. eexists. split; [apply H|]. simpl. rewrite map_length. auto.
  Qed.

  Lemma contract_S fuel n : contract (Datatypes.S fuel) (VNet n) =
    (do p <- expand_and_delta ord fuel n;
     let '(cost, o, split) := find (fst p) in
     do q <- compile (contract fuel) memory cost (fst p) o split;
     do r <- execute (fst q) (snd q);
     Ok (fst r)).
  Proof. reflexivity. Qed.
  Lemma net_ok k fuel n : regular n -> expandable k n (keys (nodes n)) -> sound n (keys (nodes n)) -> unclashed n ->
    k < fuel -> (forall v, leaf n v -> exists a, contract fuel v = Ok a /\ array_of v a) ->
    (forall n', expand_and_delta ord fuel n = Ok (n', tt) -> suits memory n' (find n')) ->
    exists a, contract (Datatypes.S fuel) (VNet n) = Ok a /\ array_of (VNet n) a.
  Proof.
    intros R X Td Un L Lf Sf. destruct fuel as [|f]; [lia|].
    destruct (@expand_ok S ord Hord f (copy_tn n) None (keys (nodes n)) (copy_regular R) eq_refl) as (n1 & E1 & X1).
    { apply (wf_nodes (proj1 (rg_inv R))). } { intros x Ix; exact Ix. }
    { apply expandable_copy. eapply expandable_le; [|exact X]. lia. }
    set (ev := contract (Datatypes.S f)).
    destruct (@expanded_contractible ev n n1 R Td Un X1 Lf) as (Lv & Ov & Ci & Cf & Cn & Cs & Co & Ct).
    assert (Ht : forall d, ev (VTensor (Some d)) = Ok d) by reflexivity.
    assert (Cases : one_value n1 \/ void n1).
    { destruct Ov as [Ov|Fw]; auto. apply few_cases; [apply Ci|]. pose proof (few_expand ord (Datatypes.S f) None (few_copy Fw)) as Fx. rewrite E1 in Fx. exact Fx. }
    destruct Cases as [Ov1|Vd].
    2:{ destruct (@void_contract S tval _ (entries ev) ev (entries_laws ev Ht) (entries_ev ev Ht) n1 Ci Cf Cn Cs Co Ct Vd) as (n' & E2 & Ed & Run).
        assert (E : expand_and_delta ord (Datatypes.S f) n = Ok (n', tt)).
        { unfold expand_and_delta, run_net, mbind. rewrite E1, E2. reflexivity. }
        specialize (Sf n' E). destruct (find n') as [[cost o] split] eqn:Ef. destruct Sf as (G & Oo & MO & Mem).
        destruct (Run memory cost o split Mem) as (t & st & r & st' & Ec & Ex & Sh & Vr).
        exists r. rewrite contract_S, E. cbn [bind fst snd]. rewrite Ef. fold ev. rewrite Ec. cbn [bind fst snd]. rewrite Ex. cbn [bind fst snd]. split; auto.
        split.
        - cbn [tval_shape]. f_equal. rewrite Sh, Ed, (xp_shape X1). reflexivity.
        - intros idx _. rewrite Vr. cbn [tval_value]. change (tn_value (@tval_value S) n idx) with (tn_value (@tval_value S) (copy_tn n) idx).
          rewrite <- (xp_value X1 idx). symmetry. apply void_value; auto. }
    assert (C : contractible ev n1) by (constructor; auto).
    destruct (@complete_delta_ready_here S tval _ (entries ev) ev (entries_laws ev Ht) (entries_ev ev Ht) n1 C)
      as (n' & E2 & Rd & V & Id & Ed & I' & D).
    assert (E : expand_and_delta ord (Datatypes.S f) n = Ok (n', tt)).
    { unfold expand_and_delta, run_net, mbind. rewrite E1, E2. reflexivity. }
    specialize (Sf n' E). destruct (find n') as [[cost o] split] eqn:Ef. destruct Sf as (G & Oo & MO & Mem).
    destruct (@contract_ready S tval _ ev n' split Rd G (entries ev) (el_value (entries_ev ev Ht)) memory cost o Oo Mem MO)
      as (t & st & r & st' & Ec & Ex & Sh & Vr).
    exists r. rewrite contract_S, E. cbn [bind fst snd]. rewrite Ef. fold ev. rewrite Ec. cbn [bind fst snd]. rewrite Ex. cbn [bind fst snd]. split; auto.
    assert (Sh' : map Some (nd_shape r) = map (edim n) (opens n)).
    { rewrite Sh. change (map (edim n) (opens n)) with (map (edim (copy_tn n)) (opens (copy_tn n))). rewrite <- (xp_shape X1), <- Ed, map_map.
      apply map_ext_in. intros e Ie. symmetry. apply (att_dim Rd). apply (rd_open Rd e Ie). }
    split.
    - cbn [tval_shape]. f_equal. symmetry. exact Sh'.
    - intros idx Li. assert (Ll : length idx = length (opens n')).
      { assert (Q := f_equal (@length _) Sh). rewrite map_length in Q. rewrite <- Q. clear -Li.
        revert Li. generalize (nd_shape r). induction idx as [|i idx IH]; intros [|d l] H; simpl in H; try discriminate; auto.
        apply andb_true_iff in H as [_ H]. simpl. f_equal. auto. }
      rewrite Vr by auto. cbn [tval_value]. change (tn_value (@tval_value S) n idx) with (tn_value (@tval_value S) (copy_tn n) idx).
      rewrite <- (xp_value X1 idx). rewrite <- (@value_ext_on (entries ev) (@tval_value S) n1 idx (xp_reg X1)).
      + rewrite <- V, (idle_value (entries ev) idx (proj1 I')), Id, (lively_no_idle (proj1 (ct_inv C)) Lv). simpl. ring.
      + intros x nd t0 ix G0 Et Hs. unfold entries. destruct (ct_typed C _ G0) as (t1 & a & Et1 & Ea & Sa).
        assert (t1 = t0) by congruence. subst t1. destruct (Lf t0) as (a' & Ea' & _ & Va).
        { apply leaf_copy, (xp_leaf X1). eapply leaf_here; eauto. rewrite <- Et. destruct (xp_nodes X1 x G0) as [P|(Nx & nd0 & G1 & _)]; auto.
          exfalso. apply Nx. exact (get_Some_key _ _ G1). }
        fold ev in Ea'. rewrite Ea'. apply Va. assert (a' = a) by congruence. subst a'. rewrite (map_size _ _ _ Sa). exact Hs.
  Qed.

  Theorem deep_ok v : well v -> finds_for ord memory find v ->
    exists k0, forall fuel, k0 <= fuel -> exists a, contract fuel v = Ok a /\ array_of v a.
  Proof.
    induction 1 as [d|l dims Ne _ IH Sh|f v _ IH|n k R X Td Un _ IH]; intros Sf.
    - exists 1. intros [|fuel] L; [lia|]. exists d. split; auto. split; auto.
    - destruct (common_bound (fun p q => exists a, contract q (snd p) = Ok a /\ array_of (snd p) a) l) as (k0 & H0).
      { intros p Ip. apply IH; auto. intros n fl n' Hn. apply Sf. eapply inside_sum; eauto. }
      exists (Datatypes.S k0). intros [|fuel] L; [lia|]. cbn [contract_val].
      assert (M : exists rs, mapM (fun p => contract fuel (snd p)) l = Ok rs /\ Forall2 (fun p a => array_of (snd p) a) l rs).
      { assert (H1 : forall p, In p l -> exists a, contract fuel (snd p) = Ok a /\ array_of (snd p) a) by (intros p Ip; apply H0; auto; lia).
        clear -H1. induction l as [|p l IH]; [exists []; simpl; auto|]. destruct (H1 p (or_introl eq_refl)) as (a & Ea & Aa).
        destruct IH as (rs & Er & Fr); [intros; apply H1; simpl; auto|]. exists (a :: rs). cbn [mapM]. rewrite Ea. cbn [bind]. rewrite Er. auto. }
      destruct M as (rs & -> & F). cbn [bind].
      assert (Shr : forall a, In a rs -> nd_shape a = dims).
      { clear -F Sh. revert Sh. induction F as [|p a l rs [Q _] F IH]; intros Sh b [].
        - subst b. rewrite (Sh p (or_introl eq_refl)) in Q. injection Q as Q. symmetry. eapply map_Some_inj; eauto.
        - apply IH; auto. intros; apply Sh; simpl; auto. }
      destruct F as [|p a l' rs Ha F]; [congruence|]. cbn [py_sum].
      destruct (@sum_from_ok dims rs a) as (r & Er & Sr & Vr); [apply Shr; simpl; auto|intros; apply Shr; simpl; auto|].
      exists r. split; auto. split.
      + cbn [tval_shape map fold_shape]. rewrite (Sh p (or_introl eq_refl)). cbn [update_shape bind].
        rewrite fold_same, Sr; auto. intros s Is. apply in_map_iff in Is as (q & <- & Iq). apply Sh. simpl; auto.
      + intros idx Hi. rewrite Vr. cbn [tval_value sumf snd]. rewrite Sr in Hi. f_equal.
        * apply Ha. rewrite (Shr a (or_introl eq_refl)). auto.
        * assert (Shr' : forall b, In b rs -> nd_shape b = dims) by (intros; apply Shr; simpl; auto). clear -F Shr' Hi.
          induction F as [|q b l rs [_ Hb] F IH]; auto. cbn [sumf]. f_equal; [|apply IH; intros; apply Shr'; simpl; auto].
          apply Hb. rewrite (Shr' b (or_introl eq_refl)). auto.
    - destruct IH as (k0 & H0); [intros n fl n' Hn; apply Sf; constructor; auto|]. exists (Datatypes.S k0).
      intros [|fuel] L; [lia|]. destruct (H0 fuel) as (a & Ea & Sa & Va); [lia|]. cbn [contract_val]. rewrite Ea. cbn [bind].
      eexists. split; [reflexivity|]. split; [exact Sa|]. intros idx Hi. cbn [nd_at tval_value]. rewrite Va; auto.
    - destruct (@leaves_bound (fun v q => exists a, contract q v = Ok a /\ array_of v a) k n X) as (k0 & H0).
      { intros v Hv. apply IH; auto. intros q fl n' Hn. apply Sf. eapply inside_leaf; eauto. }
      exists (Datatypes.S (max (Datatypes.S k) k0)). intros [|fuel] L; [lia|]. apply (@net_ok k); auto; [lia|intros v Hv; apply H0; auto; lia|].
      intros n' E. apply (@Sf n fuel n'); [constructor|exact E].
  Qed.
End Deep.
