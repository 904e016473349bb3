(** Contracting a network as the code does: delta completion, compilation, execution. *)
From Verif Require Import Base Scalar NetSpec Sums NetAlg ModelArray ArrayProofs ModelTN TNInv TNOps
  TNExact TNSpec TNDelta TNDeltaValue TNValue TNEdit ModelContract ContractFix ContractNet ContractTemplate
  ContractExec ContractMerge ContractMain.
Set Implicit Arguments.
Open Scope nat_scope.

Section Flat.
  Context {S : scalar} {T : Type} `{PT : Payload T}.
  Add Ring KringFl : (kring S).
  Notation net := (tn T).
  Implicit Types (x e : name).
  Variable pv : T -> list nat -> S.
  Variable ev : T -> res (nd S).

  (** compiler.py:36-56 compile applied to the user's network: copy, delta completion (line 45),
      template.  The nodes are not networks themselves (nested networks are expanded first, see
      ModelExpand).  The scheme found by an order finder is given as the arguments [o], [split]. *)
  Definition compile_net (memory cost : Z) (o : order) (split : list name) (n : net) : res (task * store S) :=
    do p <- run_net complete_delta (copy_tn n);
    compile ev memory cost (fst p) o split.
  (** tensor_network.py:680-706 contract: compile and execute *)
  Definition contract_net (memory cost : Z) (o : order) (split : list name) (n : net) : res (nd S) :=
    do q <- compile_net memory cost o split n;
    do r <- execute (fst q) (snd q);
    Ok (fst r).

  (** contracting a tensor stored in a node gives an array with its entries; the constants used by
      delta completion have their shapes *)
  Record ev_laws : Prop := {
    el_value : forall t a, ev t = Ok a ->
      forall idx, in_shape (nd_shape a) idx = true -> nd_at a idx = pv t idx;
    el_one : exists a, ev p_one = Ok a /\ nd_shape a = [];
    el_eye : forall d, exists a, ev (p_eye d) = Ok a /\ nd_shape a = [d; d];
    el_diag : forall bs, exists a, ev (p_diag bs) = Ok a /\ nd_shape a = [length bs]
  }.

  (** every node holds a tensor whose shape is that of the edges it is attached to *)
  Definition typed (n : net) : Prop :=
    forall x d, get x (nodes n) = Some d ->
      exists t a, n_val d = Some t /\ ev t = Ok a /\ map (edim n) (n_legs d) = map Some (nd_shape a).
  (** a closed fixed edge is fixed to one value *)
  Definition single_fixes (n : net) : Prop :=
    forall e ed fx, get e (edges n) = Some ed -> e_fix ed = Some fx -> ~ In e (opens n) -> exists v, fx = [v].

  (** closed edges that are neither attached nor fixed *)
  Definition idle (n : net) e : bool := negb (fixedb n e || attachedb n e || mem e (opens n)).
  Definition idle_factor (n : net) : nat :=
    fold_right (fun p k => if idle n (fst p) then length (edge_values (snd p)) * k else k) 1 (edges n).

  Lemma knat_mul a b : knat S (a * b) = (knat S a * knat S b)%K.
  Proof.
    induction a as [|a IH]; simpl; [ring|].
    assert (Q : forall p q, knat S (p + q) = (knat S p + knat S q)%K).
    { induction p as [|p IHp]; intros q; simpl; [ring|]. rewrite IHp. ring. }
    rewrite Q, IH. ring.
  Qed.

  Definition skipped (p : name * list nat -> bool) (d : list (name * list nat)) : nat :=
    fold_right (fun q k => if p q then k else length (snd q) * k) 1 d.
  Lemma esum_filter (p : name * list nat -> bool) (d : list (name * list nat)) (f : env -> S) s :
    NoDup (keys d) -> exten f -> (forall q, In q d -> p q = false -> indep [fst q] f) ->
    esum d f s = (knat S (skipped p d) * esum (filter p d) f s)%K.
  Proof.
    revert s; induction d as [|[a vs] r IH]; intros s ND E I.
    - unfold skipped. simpl. ring.
    - inversion ND as [|? ? Na ND']; subst. unfold skipped. simpl. fold (skipped p r). destruct (p (a, vs)) eqn:P.
      + simpl. rewrite <- sumf_mul_l. apply sumf_ext. intros v _. apply IH; auto.
        intros q Iq; apply I; simpl; auto.
      + change (sumf (fun v => esum r f (upd s a v)) vs) with (esum ((a, vs) :: r) f s).
        rewrite (@esum_unused S name _ a vs r f s); auto.
        * rewrite IH; auto; [|intros q Iq; apply I; simpl; auto]. simpl. rewrite knat_mul. ring.
        * apply (I (a, vs)); simpl; auto.
  Qed.

  Lemma idle_value (n : net) o : wf n ->
    tn_value pv n o = (knat S (idle_factor n) * tn_value pv (prune n) o)%K.
  Proof.
    intros W. unfold tn_value at 1, net_value.
    rewrite (@esum_filter (fun q => negb (idle n (fst q)))).
    - f_equal.
      + f_equal. unfold skipped, idle_factor, tn_dom. generalize (edges n). intros l. induction l as [|[e ed] r IH]; simpl; auto.
        rewrite IH. destruct (idle n e); simpl; auto.
      + unfold tn_value, net_value. unfold tn_dom, prune. simpl. f_equal.
        generalize (edges n). intros l. induction l as [|[e ed] r IH]; simpl; auto.
        unfold idle at 1. rewrite negb_involutive, IH.
        destruct (fixedb n e || attachedb n e || mem e (opens n)); auto.
    - unfold tn_dom, keys. rewrite map_map. apply (wf_edges W).
    - apply summand_exten.
    - intros [e vs] I P. simpl in P. apply negb_false_iff in P. unfold idle in P.
      apply negb_true_iff, orb_false_iff in P as [P Po]. apply orb_false_iff in P as [_ Pa].
      eapply depends_indep; [apply summand_depends|]. intros a Ia [<-|[]]. simpl in Ia.
      apply in_app_iff in Ia as [Ia|Ia].
      + apply mem_In in Ia. congruence.
      + apply labels_In in Ia as [t [It Ie]]. unfold tn_terms in It. apply in_map_iff in It as [[x d] [<- It]].
        simpl in Ie. assert (Q : attachedb n e = true).
        { apply (attached_In e W). exists x, d. split; auto. apply In_get; auto. apply (wf_nodes W). }
        congruence.
  Qed.

  Definition idle_list (n : net) := filter (fun p => idle n (fst p)) (edges n).
  Definition sizes (l : list (name * edge)) : nat := fold_right (fun p k => length (edge_values (snd p)) * k) 1 l.
  Lemma idle_factor_list n : idle_factor n = sizes (idle_list n).
  Proof.
    unfold idle_factor, idle_list. induction (edges n) as [|[e ed] r IH]; simpl; auto.
    destruct (idle n e); simpl; auto.
  Qed.
  Lemma sizes_perm l m : Permutation l m -> sizes l = sizes m.
  Proof. induction 1; simpl; lia. Qed.

  Variable laws : @payload_laws S T PT pv.
  Variable elaws : ev_laws.

  Lemma attachedb_adj (n : net) e : attachedb n e = true <-> attached n e.
  Proof.
    unfold attachedb, attached. rewrite existsb_exists. split.
    - intros [[x a] [I Q]]. simpl in Q. apply eqb_eq in Q as ->. eauto.
    - intros [x I]. exists (x, e). split; auto. apply eqb_refl.
  Qed.
  Lemma fixedb_unfixed (n : net) e : TNDeltaValue.unfixed n e -> fixedb n e = false.
  Proof. intros (ed & G & F). unfold fixedb. rewrite G, F. auto. Qed.

  Lemma idle_grows (n n' : net) : wf n -> wf n' -> delta_grows n n' ->
    (forall e, In e (opens n') -> attached n' e) -> idle_factor n' = idle_factor n.
  Proof.
    intros W W' D At. rewrite !idle_factor_list. apply sizes_perm.
    apply NoDup_Permutation.
    - apply NoDup_filter'. eapply NoDup_map_inv, (wf_edges W').
    - apply NoDup_filter'. eapply NoDup_map_inv, (wf_edges W).
    - intros [e ed]. unfold idle_list. rewrite !filter_In. simpl.
      assert (Idle : forall m, idle m e = true <-> fixedb m e = false /\ attachedb m e = false /\ ~ In e (opens m)).
      { intros m. unfold idle. rewrite negb_true_iff, !orb_false_iff, <- mem_false. tauto. }
      rewrite !Idle. split.
      + intros (I & F & A & O). apply (In_get _ _ _ (wf_edges W')) in I.
        assert (NA : ~ attached n' e) by (rewrite <- attachedb_adj; congruence).
        destruct (dg_edges D e (get_Some_key _ _ I)) as [K|K]; [|tauto].
        assert (O' : ~ In e (opens n)) by (intros Q; apply O, (dg_opens D); auto).
        rewrite (dg_closed D e O' K) in I. split; [apply get_In; auto|]. split; [|split; auto].
        * unfold fixedb in *. rewrite (dg_closed D e O' K) in F. auto.
        * destruct (attachedb n e) eqn:Q; auto. apply attachedb_adj in Q as [y Q].
          exfalso. apply NA. exists y. apply (dg_adj D); auto.
      + intros (I & F & A & O). apply (In_get _ _ _ (wf_edges W)) in I.
        assert (K := get_Some_key _ _ I). assert (C := dg_closed D e O K).
        split; [apply get_In; congruence|].
        assert (NA : ~ attached n' e).
        { intros [y Q]. apply (dg_adjnew D) in Q as [Q|[Q|Q]]; try tauto.
          assert (attachedb n e = true) by (apply attachedb_adj; exists y; auto). congruence. }
        split; [unfold fixedb in *; rewrite C; auto|]. split.
        * destruct (attachedb n' e) eqn:Q; auto. apply attachedb_adj in Q. tauto.
        * intros Q. apply NA, At, Q.
  Qed.

  Record contractible (n : net) : Prop := {
    ct_inv : inv n;
    ct_fix : fix_nodup n;
    ct_names : delta_names_free n;
    ct_star : ~ In star (keys (nodes n));
    ct_open : forall e, In e (opens n) -> exists d, edim n e = Some d;
    ct_typed : typed n;
    ct_single : single_fixes n
  }.

  Lemma map_size (n : net) l sh : map (edim n) l = map Some sh -> sh = map (size n) l.
  Proof.
    revert sh; induction l as [|e r IH]; intros [|d sh] E; simpl in *; try discriminate; auto.
    inversion E. f_equal; auto. unfold size. rewrite H0. auto.
  Qed.

  Lemma typed_grows (n n' : net) : typed n -> wf n -> delta_grows n n' ->
    forall x d, get x (nodes n') = Some d ->
      exists t a, n_val d = Some t /\ ev t = Ok a /\ map (edim n') (n_legs d) = map Some (nd_shape a).
  Proof.
    intros Ty W D x d G. apply (dg_nodes D) in G as [G|[[L V]|[(a & b & k & L & V & A & B)|(a & bs & L & V & A)]]].
    - destruct (Ty _ _ G) as (t & a & E1 & E2 & E3). exists t, a. split; auto. split; auto.
      rewrite <- E3. apply map_ext_in. intros e I. apply (dg_dim D). eapply (wf_legs W); eauto.
    - destruct (el_one elaws) as (a & E & Sh). exists p_one, a. rewrite L, Sh. auto.
    - destruct (el_eye elaws k) as (c & E & Sh). exists (p_eye k), c. rewrite L, Sh. simpl. rewrite A, B. auto.
    - destruct (el_diag elaws bs) as (c & E & Sh). exists (p_diag bs), c. rewrite L, Sh. simpl. rewrite A. auto.
  Qed.

  Lemma complete_delta_ready_here n : contractible n ->
    exists n', complete_delta n = (n', Ok tt) /\ ready ev n' /\
      (forall o, tn_value pv n' o = tn_value pv n o) /\ idle_factor n' = idle_factor n /\
      map (edim n') (opens n') = map (edim n) (opens n) /\ inv n' /\ delta_grows n n'.
  Proof.
    intros [I Fx Nf St Op Ty Si].
    destruct (complete_delta_full laws I Fx Nf Op St) as (n' & E & I' & Fx' & V & Ed & ND & Oa & Ne & D).
    pose proof D as D'.
    exists n'. split; auto. split; [|split; [exact V|split; [|split; [exact Ed|split; auto]]]].
    - constructor; auto.
      + apply I'.
      + intros e Ie. destruct (Oa e Ie) as [A B]. split; [apply attachedb_adj; auto|apply fixedb_unfixed; auto].
      + intros e ed fx G F. assert (G0 := dg_fix D' _ G F). apply (Si e ed fx G0 F).
        intros Q. apply (dg_opens D') in Q. apply Oa in Q as [_ (ed' & Q1 & Q2)]. congruence.
      + intros x d Ix. apply (In_get _ _ _ (wf_nodes (proj1 I'))) in Ix.
        destruct (typed_grows Ty (proj1 I) D' _ Ix) as (t & a & E1 & E2 & E3).
        exists t, a. split; auto. split; auto. split; [apply map_size; auto|].
        intros e Ie. assert (Q : In (edim n' e) (map Some (nd_shape a))) by (rewrite <- E3; apply in_map; auto).
        apply in_map_iff in Q as (k & Q & _). unfold size. rewrite <- Q. auto.
    - apply idle_grows; auto; [apply I|apply I'|]. intros e Ie; apply Oa; auto.
  Qed.

  Lemma complete_delta_ready n : contractible n ->
    exists n', complete_delta (copy_tn n) = (n', Ok tt) /\ ready ev n' /\
      (forall o, tn_value pv n' o = tn_value pv n o) /\ idle_factor n' = idle_factor n /\
      map (edim n') (opens n') = map (edim n) (opens n) /\ inv n' /\ delta_grows n n'.
  Proof.
    intros [I Fx Nf St Op Ty Si].
    assert (Ic : inv (copy_tn n)).
    { destruct I as [W C]. split; [|exact C]. destruct W. constructor; auto. }
    destruct (@complete_delta_ready_here (copy_tn n)) as (n' & E & R & V & Id & Ed & I' & D).
    { constructor; auto. }
    exists n'. do 6 (split; [assumption|]). destruct D; constructor; auto.
  Qed.

  (** the scheme given to [contract_net]: sliced edges and order make sense for the completed network *)
  Definition good_scheme (n : net) (o : order) (split : list name) : Prop :=
    forall n', complete_delta (copy_tn n) = (n', Ok tt) ->
      good_slices n' split /\ order_okb n' o /\ merge_ok n' split.

  (** compilation succeeds and gives the task described in ContractTemplate *)
  Lemma compile_net_ok n memory cost o split :
    contractible n -> good_scheme n o split -> (cost * 48 <= memory * 2 ^ 30)%Z ->
    exists n' path st, complete_delta (copy_tn n) = (n', Ok tt) /\
      compile_net memory cost o split n = Ok (the_task n' split path, st) /\
      ready ev n' /\ good_slices n' split /\ merge_ok n' split /\ path_ok n' path /\ good ev n' split st /\
      (forall idx, tn_value pv n idx = (knat S (idle_factor n) * tn_value pv (prune n') idx)%K) /\
      map (edim n') (opens n') = map (edim n) (opens n) /\ delta_grows n n'.
  Proof.
    intros C Sc Mem. destruct (complete_delta_ready C) as (n' & E & R & V & If & Ed & I' & D).
    destruct (Sc _ E) as (G & Oo & MO).
    destruct (@compile_ok S T PT ev n' split R G memory cost o Oo Mem) as (path & st & Ec & PO & Gd).
    exists n', path, st. split; auto. split.
    { unfold compile_net, run_net. rewrite E. exact Ec. }
    split; auto. split; auto. split; auto. split; auto. split; auto. split; [|split; auto].
    intros idx. rewrite <- V, (idle_value idx (proj1 I')), If. auto.
  Qed.

  Theorem contract_net_ok n memory cost o split :
    contractible n -> good_scheme n o split -> (cost * 48 <= memory * 2 ^ 30)%Z ->
    exists n' r, complete_delta (copy_tn n) = (n', Ok tt) /\ contract_net memory cost o split n = Ok r /\
      map Some (nd_shape r) = map (edim n) (opens n) /\
      forall idx, length idx = length (opens n) ->
        nd_at r idx = tn_value pv (prune n') idx /\
        tn_value pv n idx = (knat S (idle_factor n) * nd_at r idx)%K.
  Proof.
    intros C Sc Mem. destruct (complete_delta_ready C) as (n' & E & R & V & If & Ed & I' & D).
    destruct (Sc _ E) as (G & Oo & MO).
    destruct (@contract_ready S T PT ev n' split R G pv (el_value elaws) memory cost o Oo Mem MO)
      as (t & st & r & st' & Ec & Ex & Sh & Vr).
    exists n', r. split; auto. unfold contract_net, compile_net, run_net. rewrite E. cbn [bind fst snd]. rewrite Ec. cbn [bind fst snd].
    rewrite Ex. cbn [bind fst snd]. split; auto.
    assert (L : length (opens n') = length (opens n)).
    { rewrite <- (map_length (edim n')), Ed, map_length. auto. }
    split.
    - rewrite Sh, <- Ed, map_map. apply map_ext_in. intros e Ie. symmetry.
      apply (att_dim R). apply (rd_open R e Ie).
    - intros idx Li. assert (Q : nd_at r idx = tn_value pv (prune n') idx) by (apply Vr; congruence).
      split; auto. rewrite <- V, (idle_value idx (proj1 I')), If, Q. auto.
  Qed.
End Flat.
