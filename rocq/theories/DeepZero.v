(** Contracting a network with a closed edge that is fixed to no value gives zeros. *)
From Verif Require Import Base Scalar NetSpec Sums NetAlg ModelArray ArrayProofs ModelTN TNInv TNOps
  TNExact TNSpec TNDelta TNDeltaValue TNValue TNEdit ModelContract ContractFix ContractNet ContractTemplate
  ContractExec ContractMerge ContractMain ContractFlat.
Set Implicit Arguments.
Open Scope nat_scope.

Section Zero.
  Context {S : scalar} {T : Type} `{PT : Payload T}.
  Notation net := (tn T).
  Implicit Types (n : net) (e : name).
  Add Ring KringDz : (kring S).
  Variable pv : T -> list nat -> S.
  Variable ev : T -> res (nd S).
  Variable laws : @payload_laws S T PT pv.
  Variable elaws : ev_laws pv ev.

  (** a closed edge fixed to no value *)
  Definition void n : Prop := exists e ed, get e (edges n) = Some ed /\ e_fix ed = Some [] /\ ~ In e (opens n).

  Lemma esum_void d (f : env -> S) e : In (e, []) d -> forall s, esum d f s = k0.
  Proof.
    induction d as [|[a vs] d IH]; [intros []|]. intros [Q|Ie] s; simpl.
    - injection Q as -> ->. reflexivity.
    - rewrite (sumf_ext _ (fun _ => k0)) by (intros; apply IH; auto). apply sumf_zero.
  Qed.
  Lemma void_value n idx : void n -> tn_value pv n idx = k0.
  Proof.
    intros (e & ed & G & F & _). unfold tn_value, net_value. eapply esum_void. unfold tn_dom. apply in_map_iff. exists (e, ed). split; [|apply get_In; exact G].
    cbn [fst snd]. unfold edge_values. rewrite F. reflexivity.
  Qed.
  Lemma edge_fix_void es : (exists e ed, In (e, ed) es /\ e_fix ed = Some []) -> edge_fix [] es = Ok None.
  Proof.
    induction es as [|[a ad] es IH]; intros (e & ed & Ie & F); [destruct Ie|]. cbn [edge_fix mem].
    destruct Ie as [Q|Ie]; [injection Q as -> ->; rewrite F; auto|].
    assert (E : edge_fix [] es = Ok None) by (apply IH; eauto). rewrite E. cbn [bind option_map]. destruct (e_fix ad) as [[|v fx]|]; auto.
  Qed.
  Lemma shape_ok n : (forall e, In e (opens n) -> In e (keys (edges n)) /\ exists d, edim n e = Some d) ->
    exists sh, shape_ints n = Ok sh /\ map Some sh = map (edim n) (opens n).
  Proof.
    unfold shape_ints, shape_tn. generalize (opens n) as l. induction l as [|e l IH]; intros H; [exists []; auto|].
    destruct IH as (sh & E & Q); [intros; apply H; simpl; auto|]. destruct (H e (or_introl eq_refl)) as [K (d & D)].
    destruct (key_get _ _ K) as (ed & G). unfold edim in D. rewrite G in D. exists (d :: sh). cbn [mapM]. rewrite G. cbn [bind].
    destruct (mapM _ l) as [ds|]; [|discriminate E]. cbn [bind] in *. cbn [mapM]. rewrite D. cbn [bind]. rewrite E. split; auto. simpl. unfold edim at 1. rewrite G, D, Q. auto.
  Qed.
  Lemma data_ok n : wf n -> typed ev n -> exists d, node_data ev n = Ok d.
  Proof.
    intros W Ty. unfold node_data. assert (H : forall p, In p (nodes n) -> exists t a, n_val (snd p) = Some t /\ ev t = Ok a).
    { intros [x nd] Ip. apply (In_get _ _ _ (wf_nodes W)) in Ip. destruct (Ty x nd Ip) as (t & a & E1 & E2 & _). eauto. }
    revert H. generalize (nodes n) as l. induction l as [|p l IH]; intros H; [exists []; auto|].
    destruct (H p (or_introl eq_refl)) as (t & a & E1 & E2). destruct IH as (d & E); [intros; apply H; simpl; auto|].
    exists ((fst p, a) :: d). cbn [mapM]. rewrite E1, E2. cbn [bind]. rewrite E. auto.
  Qed.
  Lemma void_contract n : inv n -> fix_nodup n -> delta_names_free n -> ~ In star (keys (nodes n)) ->
    (forall e, In e (opens n) -> exists d, edim n e = Some d) -> typed ev n -> void n ->
    exists n', complete_delta n = (n', Ok tt) /\ map (edim n') (opens n') = map (edim n) (opens n) /\
      forall memory cost o split, (cost * 48 <= memory * 2 ^ 30)%Z ->
      exists t st r st', compile ev memory cost n' o split = Ok (t, st) /\ execute t st = Ok (r, st') /\
        map Some (nd_shape r) = map (edim n') (opens n') /\ forall idx, nd_at r idx = k0.
  Proof.
    intros I Fx Nf St Op Ty (e & ed & G & F & No).
    destruct (complete_delta_full laws I Fx Nf Op St) as (n' & E & I' & Fx' & V & Ed & ND & Oa & Ne & D).
    exists n'. split; auto. split; auto. intros memory cost o split M.
    destruct (@shape_ok n') as (sh & Es & Qs).
    { intros a Ia. pose proof (wf_opens (proj1 I') _ Ia) as K. split; auto.
      assert (J : In (edim n' a) (map (edim n) (opens n))) by (rewrite <- Ed; apply in_map; auto).
      apply in_map_iff in J as (b & Q & Ib). destruct (Op b Ib) as (d & Qd). exists d. congruence. }
    destruct (@data_ok n') as (dt & Edt); [apply I'| |].
    { intros x d Gx. eapply typed_grows; eauto. apply I. }
    assert (Ev : edge_fix [] (edges n') = Ok None).
    { apply edge_fix_void. exists e, ed. split; auto. apply get_In. rewrite (dg_closed D e No); auto. eapply get_Some_key; eauto. }
    unfold compile. replace (memory * 2 ^ 30 <? cost * 3 * 2 ^ 4)%Z with false by (symmetry; apply Z.ltb_ge; lia).
    unfold generate_template. rewrite Ev, Es, Edt. cbn [bind fst snd].
    do 4 eexists. split; [reflexivity|]. split; [reflexivity|]. split; [exact Qs|]. intros idx. reflexivity.
  Qed.
End Zero.
