(** Consequences of the correctness of tasks for the networks of arrays a user builds. *)
From Verif Require Import Base Scalar NetSpec Sums NetAlg ModelArray ArrayProofs ModelTN TNInv TNOps
  TNExact TNSpec TNDelta TNValue TNValue2 TNEdit TNDeltaValue ModelContract ContractFix ContractNet ContractTemplate
  ContractExec ContractMerge ContractMain ContractFlat ContractSched NameOrder ContractData ContractSession.
Set Implicit Arguments.
Open Scope nat_scope.

(** ** specification *)
Section Spec.
  Context {S : scalar}.
  (** the entry of the network at the index [idx] of its open edges *)
  Definition value (n : tn (nd S)) (idx : list nat) : S := tn_value (@nd_at S) n idx.
  (** [r] is the array with these entries *)
  Definition array_of_value (n : tn (nd S)) (r : nd S) : Prop :=
    map Some (nd_shape r) = map (edim n) (opens n) /\
    forall idx, length idx = length (opens n) -> nd_at r idx = value n idx.
  (** every edge is open, fixed, or a leg of some node *)
  Definition no_idle_edge (n : tn (nd S)) : Prop :=
    forall e ed, get e (edges n) = Some ed ->
      In e (opens n) \/ e_fix ed <> None \/ exists x d, get x (nodes n) = Some d /\ In e (n_legs d).
  (** the memory of the guard in compile (compiler.py:41) suffices *)
  Definition fits_memory (memory cost : Z) : Prop := (cost * 48 <= memory * 2 ^ 30)%Z.
  Definition same_array (a b : nd S) : Prop :=
    nd_shape a = nd_shape b /\ forall idx, length idx = length (nd_shape a) -> nd_at a idx = nd_at b idx.
  (** [m] is [n] with other values for the closed fixed edges *)
  Definition only_fixes_differ (n m : tn (nd S)) : Prop :=
    nodes m = nodes n /\ adj m = adj n /\ opens m = opens n /\
    Forall2 (fun p q : name * edge =>
               fst q = fst p /\ e_dim (snd q) = e_dim (snd p) /\
               (In (fst p) (opens n) -> e_fix (snd q) = e_fix (snd p)) /\
               (e_fix (snd q) = None <-> e_fix (snd p) = None)) (edges n) (edges m).
End Spec.

Section User.
  Context {S : scalar}.
  Add Ring KringUs : (kring S).
  Notation anet := (tn (nd S)).
  Implicit Types (x e : name) (n m : anet).

  Lemma not_idle n e : idle n e = false <-> fixedb n e = true \/ attachedb n e = true \/ In e (opens n).
  Proof.
    unfold idle. rewrite negb_false_iff, !orb_true_iff, mem_In. tauto.
  Qed.
  Lemma no_idle_spec n e ed : wf n -> no_idle_edge n -> get e (edges n) = Some ed -> idle n e = false.
  Proof.
    intros W H Ge. apply not_idle. destruct (H e ed Ge) as [O|[F|(x & d & Gx & L)]]; auto.
    - left. unfold fixedb. rewrite Ge. destruct (e_fix ed); congruence.
    - right; left. apply attachedb_adj. exists x. apply (wf_adj W). eauto.
  Qed.
  Lemma idle_factor_one n : wf n -> no_idle_edge n -> idle_factor n = 1.
  Proof.
    intros W H. unfold idle_factor.
    assert (Q : forall l, (forall p, In p l -> In p (edges n)) ->
      fold_right (fun p k => if idle n (fst p) then length (edge_values (snd p)) * k else k) 1 l = 1).
    { induction l as [|[e ed] r IH]; intros I; auto. cbn [fold_right fst snd].
      rewrite (@no_idle_spec n e ed); auto; [apply IH; intros p Ip; apply I; simpl; auto|].
      apply In_get; [apply (wf_edges W)|apply I; simpl; auto]. }
    apply Q. auto.
  Qed.
  Lemma prune_same n : wf n -> no_idle_edge n -> prune n = n.
  Proof.
    intros W H. unfold prune. destruct n as [ns es ad os ic]. unfold with_edges. cbn [nodes edges adj opens idc]. f_equal.
    set (n := TN ns es ad os ic) in *.
    assert (Q : forall l, (forall p, In p l -> In p (edges n)) ->
      filter (fun p => fixedb n (fst p) || attachedb n (fst p) || mem (fst p) os) l = l).
    { induction l as [|[e ed] r IH]; intros I; auto. cbn [filter fst].
      assert (E : idle n e = false) by (eapply no_idle_spec; eauto; apply In_get; [apply (wf_edges W)|apply I; simpl; auto]).
      unfold idle in E. apply negb_false_iff in E. cbn [opens n] in E. rewrite E. f_equal. apply IH. intros p Ip. apply I. simpl; auto. }
    apply Q. auto.
  Qed.
  Lemma no_idle_grows n n' : wf n -> wf n' -> delta_grows n n' -> map (edim n') (opens n') = map (edim n) (opens n) ->
    no_idle_edge n -> no_idle_edge n'.
  Proof.
    intros W W' D _ H e ed' Ge.
    destruct (in_dec eq_dec_of_eqb e (opens n)) as [O|O]; [left; apply (dg_opens D); auto|].
    assert (Att : attached n' e -> exists x d, get x (nodes n') = Some d /\ In e (n_legs d)).
    { intros [x I]. apply (wf_adj W') in I as (d & ? & ?). eauto. }
    destruct (dg_edges D e (get_Some_key _ _ Ge)) as [I|I]; [|right; right; apply Att, I].
    assert (Eq := dg_closed D _ O I). rewrite Ge in Eq. symmetry in Eq.
    destruct (H _ _ Eq) as [Q|[Q|(x & d & Gx & L)]]; [contradiction|auto|].
    right; right. apply Att. exists x. apply (dg_adj D). apply (wf_adj W). eauto.
  Qed.

  (** ** contraction *)
  Lemma contract_value n memory cost o split :
    contractible Ok n -> no_idle_edge n -> good_scheme n o split -> fits_memory memory cost ->
    exists r, contract_net Ok memory cost o split n = Ok r /\ array_of_value n r.
  Proof.
    intros C N G M.
    destruct (@contract_net_ok S (nd S) _ (@nd_at S) Ok (nd_laws S) (nd_ev_laws S) n memory cost o split C G M)
      as (n' & r & _ & E & Sh & V).
    exists r. split; auto. split; auto. intros idx L. destruct (V idx L) as [_ V2]. unfold value. rewrite V2.
    rewrite idle_factor_one; auto; [simpl; ring|]. apply C.
  Qed.

  Lemma contract_same n memory cost memory' cost' o o' split split' :
    contractible Ok n -> good_scheme n o split -> good_scheme n o' split' ->
    fits_memory memory cost -> fits_memory memory' cost' ->
    exists r r', contract_net Ok memory cost o split n = Ok r /\ contract_net Ok memory' cost' o' split' n = Ok r' /\
      same_array r r'.
  Proof.
    intros C G G' M M'.
    destruct (@contract_net_ok S (nd S) _ (@nd_at S) Ok (nd_laws S) (nd_ev_laws S) n memory cost o split C G M)
      as (n' & r & D & E & Sh & V).
    destruct (@contract_net_ok S (nd S) _ (@nd_at S) Ok (nd_laws S) (nd_ev_laws S) n memory' cost' o' split' C G' M')
      as (n2 & r' & D' & E' & Sh' & V').
    exists r, r'. split; auto. split; auto.
    assert (Es : nd_shape r = nd_shape r').
    { rewrite <- Sh' in Sh. clear - Sh. revert Sh. generalize (nd_shape r'). induction (nd_shape r) as [|a l IH]; intros [|b k] E; simpl in E; try discriminate; auto.
      inversion E. f_equal; auto. }
    split; auto. intros idx L.
    assert (L' : length idx = length (opens n)).
    { rewrite L. rewrite <- (map_length Some), Sh, map_length. auto. }
    rewrite D in D'. inversion D'; subst n2. rewrite (proj1 (V _ L')), (proj1 (V' _ L')). auto.
  Qed.

  (** ** subtasks *)
  Lemma get_dom e (d : list (name * list nat)) vs : In (e, vs) d -> In e (keys d).
  Proof. intros I. apply in_map_iff. exists (e, vs). auto. Qed.

  (** number of subtasks *)
  Fixpoint edges_count n (l : list name) : nat :=
    match l with [] => 1 | e :: r => size n e * edges_count n r end.
  Definition slices_count n (split : list name) : nat := edges_count n (dedup split).
  Lemma edges_count_perm n l l' : Permutation l l' -> edges_count n l = edges_count n l'.
  Proof. induction 1; simpl; lia. Qed.

  Lemma dlen_split n split : ready Ok n -> good_slices n split ->
    dlen (fd1_of n ++ fd2_of n split) = slices_count n split.
  Proof.
    intros R G. rewrite singles_dlen; [|intros e vs I; apply (fd1_single R) in I as (w & -> & _); eauto].
    assert (P : Permutation (keys (fd2_of n split)) (dedup split)).
    { apply NoDup_Permutation.
      - apply (NoDup_app_remove_l (keys (fd1_of n))). rewrite <- keys_app. apply (dom_NoDup split R).
      - apply dedup_NoDup.
      - intros e. rewrite dedup_In. split; intros I.
        + apply in_map_iff in I as [[a vs] [<- I]]. apply (fd2_In R G) in I. apply I.
        + apply get_dom with (seq 0 (size n e)). apply (fd2_In R G). auto. }
    unfold slices_count. rewrite <- (edges_count_perm n P). clear P.
    assert (Q : forall l, (forall e vs, In (e, vs) l -> vs = seq 0 (size n e)) -> dlen l = edges_count n (keys l)).
    { induction l as [|[e vs] r IH]; intros H; simpl; auto.
      rewrite (H e vs) by (simpl; auto). rewrite seq_length. rewrite IH; auto. intros; apply H; simpl; auto. }
    apply Q. intros e vs I. apply (fd2_In R G) in I. apply I.
  Qed.

  (** the value of the sliced edge [e] in subtask [k] *)
  Definition subtask_slice n split (k : nat) (e : name) : nat := sigma n split k e.

  Lemma slice_range n split k e : ready Ok n -> good_slices n split -> In e split -> subtask_slice n split k e < size n e.
  Proof.
    intros R G I. apply (gone_sigma R G k e); [apply (gs_att G); auto|].
    unfold gone. rewrite (proj2 (mem_In e split) I). apply orb_true_r.
  Qed.
  Lemma slice_surj n split (v : name -> nat) : ready Ok n -> good_slices n split ->
    (forall e, In e split -> v e < size n e) ->
    exists k, k < slices_count n split /\ forall e, In e split -> subtask_slice n split k e = v e.
  Proof.
    intros R G Hv. rewrite <- dlen_split by auto.
    destruct (@decode_surj (fd1_of n ++ fd2_of n split)
                (fun e => if mem e split then v e else match get e (fd1_of n) with Some (w :: _) => w | _ => 0 end)) as (k & Lk & E).
    - apply (dom_NoDup split R).
    - intros e vs I. apply in_app_iff in I as [I|I].
      + destruct (fd1_single R _ _ I) as (w & -> & _).
        assert (Nd : NoDup (keys (fd1_of n))).
        { pose proof (dom_NoDup split R) as Q. rewrite keys_app in Q. apply NoDup_app_iff in Q. apply Q. }
        rewrite (In_get _ _ _ Nd I).
        destruct (mem e split) eqn:M; [|simpl; auto].
        exfalso. apply mem_In, (gs_unfixed G) in M. rewrite <- (fd1_mem R) in M. apply mem_false in M. apply M. eapply get_dom; eauto.
      + apply (fd2_In R G) in I as [I ->]. rewrite (proj2 (mem_In e split) I). apply in_seq. specialize (Hv e I). lia.
    - exists k. split; auto. intros e I. unfold subtask_slice, sigma. rewrite E.
      + rewrite (proj2 (mem_In e split) I). auto.
      + rewrite keys_app, in_app_iff. right. apply get_dom with (seq 0 (size n e)). apply (fd2_In R G). auto.
  Qed.
  Lemma slice_inj n split k k' : ready Ok n -> good_slices n split ->
    k < slices_count n split -> k' < slices_count n split ->
    (forall e, In e split -> subtask_slice n split k e = subtask_slice n split k' e) -> k = k'.
  Proof.
    intros R G L L' E. rewrite <- dlen_split in L, L' by auto.
    apply (@decode_inj (fd1_of n ++ fd2_of n split) (@env0 name) (@env0 name)); auto.
    - apply (dom_NoDup split R).
    - intros e vs I. apply in_app_iff in I as [I|I].
      + destruct (fd1_single R _ _ I) as (w & -> & _). constructor; auto. constructor.
      + apply (fd2_In R G) in I as [_ ->]. apply seq_NoDup.
    - intros e I. rewrite keys_app, in_app_iff in I. destruct I as [I|I]; apply in_map_iff in I as [[a vs] [<- I]].
      + destruct (fd1_single R _ _ I) as (w & -> & _). cbn [fst].
        rewrite !(decode_fixed split R _ (@env0 name) _ _ I). auto.
      + apply (fd2_In R G) in I. apply E, I.
  Qed.

  (** ** re-fixing *)
  Definition closedb n e : bool := negb (mem e (opens n)).
  Lemma fixes_get (l l' : list (name * edge)) (P : name * edge -> name * edge -> Prop) :
    Forall2 P l l' -> (forall p q, P p q -> fst q = fst p) -> NoDup (keys l) ->
    forall p q, In (p, q) (combine l l') -> get (fst p) l' = Some (snd q).
  Proof.
    intros F Hp. induction F as [|p q l l' H F IH]; intros N p' q' I; simpl in I; [tauto|].
    inversion N; subst. destruct q as [e ed]. assert (Q := Hp _ _ H). simpl in Q. subst e.
    destruct I as [I|I].
    - inversion I; subst. simpl. rewrite eqb_refl. auto.
    - simpl. destruct (eqb_spec (fst p') (fst p)) as [E|]; [|eapply IH; eauto].
      exfalso. apply H2. rewrite <- E. apply in_combine_l in I. apply in_map; auto.
  Qed.
  Lemma only_fixes_refix n m : wf n -> idc m = idc n -> single_fixes m -> only_fixes_differ n m ->
    m = refix (closedb n) (fixes_of m) n.
  Proof.
    intros W Ic Sf (H1 & H2 & H3 & F).
    assert (Hg := fixes_get F (fun p q H => proj1 H) (wf_edges W)).
    unfold refix, with_edges. rewrite <- H1, <- H2, <- H3, <- Ic.
    assert (E : rf_edges (closedb n) (fixes_of m) (edges n) = edges m).
    { assert (Q : forall l l', Forall2 (fun p q : name * edge =>
               fst q = fst p /\ e_dim (snd q) = e_dim (snd p) /\
               (In (fst p) (opens n) -> e_fix (snd q) = e_fix (snd p)) /\
               (e_fix (snd q) = None <-> e_fix (snd p) = None)) l l' ->
             (forall p q, In (p, q) (combine l l') -> get (fst p) (edges m) = Some (snd q)) ->
             rf_edges (closedb n) (fixes_of m) l = l').
      { intros l l' G. induction G as [|[e ed] [e' ed'] l l' (E1 & E2 & E3 & E4) G IH]; intros Hq; auto.
        cbn [rf_edges map fst snd] in *. subst e'. f_equal; [|apply IH; intros; apply Hq; simpl; auto].
        f_equal. assert (Ge := Hq _ _ (or_introl eq_refl)). cbn [fst snd] in Ge.
        unfold rf_edge, closedb. destruct (mem e (opens n)) eqn:M; cbn [negb].
        - apply mem_In, E3 in M. destruct ed as [a b], ed' as [a' b']. simpl in *. congruence.
        - apply mem_false in M. rewrite <- H3 in M. destruct ed as [a b], ed' as [a' b']. simpl in *. subst a'.
          f_equal. destruct b as [b|]; simpl.
          + destruct b' as [b'|]; [|exfalso; destruct E4 as [E4 _]; discriminate (E4 eq_refl)].
            destruct (Sf _ _ _ Ge eq_refl M) as (w & ->). unfold fixes_of. rewrite Ge. auto.
          + destruct E4 as [_ E4]. rewrite (E4 eq_refl). auto. }
      apply Q; auto. }
    rewrite E. destruct m; auto.
  Qed.

  Lemma refix_ext L L' v n : (forall e ed, In (e, ed) (edges n) -> e_fix ed <> None -> L e = L' e) ->
    refix L v n = refix L' v n.
  Proof.
    intros H. unfold refix, with_edges. f_equal. unfold rf_edges. apply map_ext_in. intros [e ed] I.
    cbn [fst snd]. f_equal. unfold rf_edge. destruct ed as [d [f|]]; cbn [e_dim e_fix option_map].
    - rewrite (H e _ I) by (simpl; congruence). auto.
    - destruct (L e), (L' e); auto.
  Qed.

  (** fixed edges of the completed network are closed in the original, and the same *)
  Lemma completed_fixed n n' e ed f : delta_grows n n' -> (forall e, In e (opens n') -> fixedb n' e = false) ->
    get e (edges n') = Some ed -> e_fix ed = Some f -> ~ In e (opens n) /\ get e (edges n) = Some ed.
  Proof.
    intros D Fo Ge F. split; [|eapply (dg_fix D); eauto]. intros I. apply (dg_opens D), Fo in I.
    unfold fixedb in I. rewrite Ge, F in I. discriminate.
  Qed.

  Lemma update_fix_recompiles n m memory cost o split :
    contractible Ok n -> contractible Ok m -> only_fixes_differ n m ->
    good_scheme n o split -> (forall e, In e split -> exists ed, get e (edges n) = Some ed /\ e_fix ed = None) ->
    fits_memory memory cost ->
    exists t st t' st' r st'' r',
      compile_net Ok memory cost o split n = Ok (t, st) /\
      update_fix (fix_attr m) t st = Ok (t', st') /\ execute t' st' = Ok (r, st'') /\
      contract_net Ok memory cost o split m = Ok r' /\ same_array r r'.
  Proof.
    intros C Cm OF G Sp Mem.
    destruct (@compile_net_ok S (nd S) _ (@nd_at S) Ok (nd_laws S) (nd_ev_laws S) n memory cost o split C G Mem)
      as (n' & path & st & D & E & R & Gs & MO & PO & Gd & V & Ed & Gr).
    set (m0 := copy_tn m).
    assert (Em : m0 = refix (closedb n) (fixes_of m) (copy_tn n)).
    { unfold m0. assert (Q : fixes_of m = fixes_of m0) by reflexivity. rewrite Q.
      change (closedb n) with (closedb (copy_tn n)). apply only_fixes_refix; auto.
      - destruct (ct_inv C) as [[] _]; constructor; auto.
      - exact (ct_single Cm). }
    assert (Dm : complete_delta m0 = (refix (closedb n) (fixes_of m) n', Ok tt)).
    { rewrite Em, complete_delta_blind; [rewrite D; reflexivity|].
      intros e I. unfold closedb. simpl in I. rewrite (proj2 (mem_In _ _) I). auto. }
    set (m' := refix (closedb n) (fixes_of m) n') in *.
    assert (FC : forall e ed f, get e (edges n') = Some ed -> e_fix ed = Some f -> ~ In e (opens n) /\ get e (edges n) = Some ed).
    { intros e ed f. apply completed_fixed; auto. intros a Ia. apply (rd_open R a Ia). }
    assert (Es : set_fixes n' m = m').
    { apply refix_ext. intros e ed I F. assert (Ge := In_get _ _ _ (wf_edges (rd_wf R)) I).
      unfold fixedb. rewrite Ge. destruct (e_fix ed) as [f|] eqn:Ef; [|congruence].
      destruct (FC _ _ _ Ge Ef) as [O _]. unfold closedb. apply mem_false in O. rewrite O. auto. }
    (* the edges of m *)
    assert (Mg : forall e ed, get e (edges n) = Some ed -> get e (edges m) = Some (rf_edge (closedb n) (fixes_of m) e ed)).
    { intros e ed Ge. change (edges m) with (edges m0). rewrite Em. unfold refix. cbn [edges with_edges]. rewrite rf_get.
      change (edges (copy_tn n)) with (edges n). rewrite Ge. auto. }
    assert (Ck : call_ok split n' (TUpdateFix m)).
    { split.
      - intros e F. unfold fixedb in F. destruct (get e (edges n')) as [ed|] eqn:Ge; [|discriminate].
        destruct (e_fix ed) as [f|] eqn:Ef; [|discriminate]. destruct (FC _ _ _ Ge Ef) as [O Gn].
        assert (Gm := Mg _ _ Gn).
        assert (Om : ~ In e (opens m)) by (destruct OF as (_ & _ & -> & _); auto).
        set (edm := rf_edge (closedb n) (fixes_of m) e ed) in *.
        assert (Fm : exists w, e_fix edm = Some [w]).
        { unfold edm, rf_edge, closedb. apply mem_false in O. rewrite O. cbn [negb e_fix]. rewrite Ef. simpl. eauto. }
        destruct Fm as [w Fw]. exists edm, w. split; auto. split; auto.
        destruct (wf_fix (proj1 (ct_inv Cm)) _ Gm Fw) as (d & Hd & Hl). unfold edm in Hd. rewrite rf_dim in Hd.
        unfold size, edim. rewrite Ge, Hd. rewrite Forall_forall in Hl. apply Hl. simpl; auto.
      - intros e I. destruct (Sp e I) as (ed & Ge & F). exists (rf_edge (closedb n) (fixes_of m) e ed). split; auto.
        unfold rf_edge. destruct (closedb n e); auto. simpl. rewrite F. auto. }
    destruct (update_ok path st R Gs Ck) as (R' & G' & st' & E1 & D1 & C1). rewrite Es in *.
    assert (RS : ready_state Ok m' split st').
    { constructor; auto; [|].
      - cbn [data set_pre]. rewrite D1. destruct (good_ready_state Gd) as [[D2 D3] _ _].
        split; [exact D2|]. intros x v I. apply D3. exact I.
      - simpl; discriminate. }
    assert (MO' : merge_ok m' split) by (apply merge_ok_refix; auto).
    assert (PO' : path_ok m' path) by exact PO.
    destruct (execute_ready_state path R' G' PO' RS MO') as (r & st'' & E2 & _ & Sh & Vr).
    assert (Gm : good_scheme m o split).
    { intros m2 Q. fold m0 in Q. rewrite Dm in Q. inversion Q; subst m2. split; auto. split; auto.
      destruct (G _ D) as (_ & Oo & _). exact Oo. }
    destruct (@contract_net_ok S (nd S) _ (@nd_at S) Ok (nd_laws S) (nd_ev_laws S) m memory cost o split Cm Gm Mem)
      as (m2 & r' & D2 & E3 & Sh' & V').
    fold m0 in D2. rewrite Dm in D2. inversion D2; subst m2.
    exists (the_task n' split path), st, (the_task m' split path), st', r, st'', r'.
    split; auto. split; auto. split; auto. split; auto.
    assert (Lo : length (opens m') = length (opens m)).
    { destruct OF as (_ & _ & -> & _). apply (f_equal (@length _)) in Ed. rewrite !map_length in Ed. exact Ed. }
    split.
    - rewrite Sh. assert (Q : map Some (map (size m') (opens m')) = map Some (nd_shape r')).
      { rewrite Sh'.
        transitivity (map (edim m') (opens m')).
        { rewrite map_map. apply map_ext_in. intros e I. symmetry. apply (att_dim R'). apply (rd_open R' e I). }
        transitivity (map (edim n') (opens n')).
        { apply map_ext. intros e. unfold edim, m', refix. cbn [edges with_edges]. rewrite rf_get. destruct (get e (edges n')); simpl; auto. apply rf_dim. }
        rewrite Ed. destruct OF as (_ & _ & Eo & _). rewrite Eo. apply map_ext_in. intros e I. unfold edim.
        destruct (get e (edges n)) as [ed|] eqn:Ge.
        - rewrite (Mg _ _ Ge). symmetry. apply rf_dim.
        - exfalso. apply (wf_opens (proj1 (ct_inv C))) in I. apply key_get in I as [x Hx]. congruence. }
      clear - Q. revert Q. generalize (map (size m') (opens m')), (nd_shape r').
      induction l as [|a l IH]; intros [|b k] E; simpl in E; try discriminate; auto. inversion E. f_equal; auto.
    - intros idx L. rewrite Sh, map_length in L. rewrite Vr with (pv := @nd_at S); auto.
      + symmetry. apply V'. congruence.
      + intros t a Q i _. inversion Q; auto.
  Qed.

  (** ** the memory guard *)
  Lemma memory_guard n memory cost o split : contractible Ok n -> good_scheme n o split ->
    (~ fits_memory memory cost -> compile_net Ok memory cost o split n = Err RuntimeError) /\
    (fits_memory memory cost -> exists t st, compile_net Ok memory cost o split n = Ok (t, st)) /\
    (forall memory' cost', fits_memory memory cost -> fits_memory memory' cost' ->
       compile_net Ok memory cost o split n = compile_net Ok memory' cost' o split n).
  Proof.
    intros C G. split; [|split].
    - intros M. destruct (complete_delta_ready (nd_laws S) (nd_ev_laws S) C) as (n' & E & _).
      unfold compile_net, run_net. rewrite E. cbn [bind fst]. unfold compile, fits_memory in *.
      replace (memory * 2 ^ 30 <? cost * 3 * 2 ^ 4)%Z with true by (symmetry; apply Z.ltb_lt; lia). auto.
    - intros M. destruct (@compile_net_ok S (nd S) _ (@nd_at S) Ok (nd_laws S) (nd_ev_laws S) n memory cost o split C G M)
        as (n' & path & st & D & E & _). eauto.
    - intros m' c' M M'. unfold compile_net. f_equal. unfold compile, fits_memory in *.
      replace (memory * 2 ^ 30 <? cost * 3 * 2 ^ 4)%Z with false by (symmetry; apply Z.ltb_ge; lia).
      replace (m' * 2 ^ 30 <? c' * 3 * 2 ^ 4)%Z with false by (symmetry; apply Z.ltb_ge; lia). auto.
  Qed.

  (** ** an edge fixed to no value *)
  Lemma edge_fix_empty e ed (l : list (name * edge)) : In (e, ed) l -> e_fix ed = Some [] -> edge_fix [] l = Ok None.
  Proof.
    induction l as [|[a ad] r IH]; intros I F; [destruct I|]. cbn [edge_fix mem existsb].
    destruct I as [I|I].
    - inversion I; subst. rewrite F. auto.
    - destruct (e_fix ad) as [[|v w]|]; auto; rewrite (IH I F); auto.
  Qed.
  Lemma esum_empty (d : list (name * list nat)) (f : env -> S) e : In (e, []) d -> forall s, esum d f s = k0.
  Proof.
    induction d as [|[a vs] r IH]; intros I s; [destruct I|]. destruct I as [I|I].
    - inversion I; subst. auto.
    - simpl. induction vs as [|v vs IHv]; simpl; auto. rewrite IH by auto. simpl in IHv. rewrite IHv. ring.
  Qed.
  Lemma empty_fix_zero n memory cost o split e ed :
    inv n -> fix_nodup n -> delta_names_free n -> ~ In star (keys (nodes n)) ->
    (forall e, In e (opens n) -> exists d, edim n e = Some d) -> typed Ok n ->
    get e (edges n) = Some ed -> e_fix ed = Some [] -> ~ In e (opens n) -> fits_memory memory cost ->
    exists r, contract_net Ok memory cost o split n = Ok r /\ array_of_value n r /\
      forall idx, nd_at r idx = k0.
  Proof.
    intros I Fx Nf St Op Ty Ge Fe Ne Mem.
    assert (Ic : inv (copy_tn n)).
    { destruct I as [W C]. split; [|exact C]. destruct W. constructor; auto. }
    destruct (complete_delta_full (nd_laws S) Ic Fx Nf Op St) as (n' & E & I' & Fx' & V & Ed & ND & Oa & Nn & D).
    assert (D' : delta_grows n n') by (destruct D; constructor; auto).
    change (map (edim (copy_tn n)) (opens (copy_tn n))) with (map (edim n) (opens n)) in Ed.
    assert (Ge' : get e (edges n') = Some ed).
    { rewrite (dg_closed D' e Ne) by (eapply get_Some_key; eauto). auto. }
    assert (Zv : forall idx, tn_value (@nd_at S) n idx = k0).
    { intros idx. unfold tn_value, net_value. apply esum_empty with e. unfold tn_dom. apply in_map_iff. exists (e, ed).
      split; [|apply get_In; auto]. simpl. unfold edge_values. rewrite Fe. auto. }
    assert (Sh : exists sh, shape_ints n' = Ok sh /\ map Some sh = map (edim n') (opens n')).
    { unfold shape_ints, shape_tn.
      assert (Q : forall l, (forall a, In a l -> exists k, edim n' a = Some k) ->
        exists sh, (do s <- mapM (fun e => match get e (edges n') with Some ed => Ok (e_dim ed) | None => Err KeyError end) l;
                    mapM (fun d => match d with Some k => Ok k | None => Err TypeError end) s) = Ok sh /\
                   map Some sh = map (edim n') l).
      { induction l as [|a r IH]; intros H; [exists []; auto|].
        destruct IH as (sh & E1 & E2); [intros; apply H; simpl; auto|].
        destruct (H a (or_introl eq_refl)) as [k Hk]. exists (k :: sh). simpl.
        unfold edim in Hk. destruct (get a (edges n')) as [ad|] eqn:Ga; [|discriminate]. simpl.
        destruct (mapM (fun e => match get e (edges n') with Some ed => Ok (e_dim ed) | None => Err KeyError end) r) as [s|]; [|discriminate].
        simpl in *. rewrite Hk. simpl. rewrite E1. simpl. split; auto. f_equal; auto. unfold edim. rewrite Ga. auto. }
      apply Q. intros a Ia. assert (In (edim n' a) (map (edim n) (opens n))) by (rewrite <- Ed; apply in_map; auto).
      apply in_map_iff in H as (b & Hb & Ib). destruct (Op b Ib) as [k Hk]. exists k. congruence. }
    destruct Sh as (sh & Es1 & Es2).
    assert (Nd : exists d, node_data Ok n' = Ok d).
    { unfold node_data.
      assert (Q : forall l, (forall x v, In (x, v) l -> get x (nodes n') = Some v) ->
        exists d, mapM (fun q : name * node (nd S) => match n_val (snd q) with Some t => do a <- Ok t; Ok (fst q, a) | None => Err KeyError end) l = Ok d).
      { induction l as [|[x v] r IH]; intros H; [exists []; auto|].
        destruct IH as [d Ed']; [intros; apply H; simpl; auto|].
        assert (Gx := H x v (or_introl eq_refl)).
        destruct (@typed_grows S (nd S) _ (@nd_at S) Ok (nd_ev_laws S) n n' Ty (proj1 I) D' x v Gx) as (t & a & E1 & _).
        cbn [mapM snd fst]. rewrite E1. cbn [bind]. cbn [bind] in Ed'. rewrite Ed'. cbn [bind]. eauto. }
      apply Q. intros x v Ix. apply In_get; auto. apply (wf_nodes (proj1 I')). }
    destruct Nd as [d Nd].
    exists (nd_zeros S sh). split; [|split].
    - unfold contract_net, compile_net, run_net. rewrite E. cbn [bind fst]. unfold compile, fits_memory in *.
      replace (memory * 2 ^ 30 <? cost * 3 * 2 ^ 4)%Z with false by (symmetry; apply Z.ltb_ge; lia).
      unfold generate_template. rewrite (@edge_fix_empty e ed); auto; [|apply get_In; auto].
      rewrite Es1. cbn [bind fst snd]. rewrite Nd. reflexivity.
    - split; [rewrite <- Ed, <- Es2; auto|]. intros idx _. unfold value. rewrite Zv. auto.
    - auto.
  Qed.
End User.
