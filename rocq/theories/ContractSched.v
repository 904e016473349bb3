(** Subtasks: what each of them computes, that they enumerate the slices, and schedules of
    creations and executions. *)
From Verif Require Import Base Scalar NetSpec Sums NetAlg ModelArray ArrayProofs ModelTN TNInv TNOps
  TNExact TNSpec ModelContract ContractFix ContractNet ContractTemplate ContractExec ContractMerge ContractMain.
Set Implicit Arguments.
Open Scope nat_scope.

(** ** the indices of the subtasks and the assignments of the sliced edges are in bijection *)
Lemma decode_surj (d : list (name * list nat)) (v : name -> nat) :
  NoDup (keys d) -> (forall e vs, In (e, vs) d -> In (v e) vs) ->
  exists k, k < dlen d /\ forall s e, In e (keys d) -> decode d k s e = v e.
Proof.
  induction d as [|[a vs] r IH]; intros ND Hv.
  - exists 0. simpl. split; [lia|]. intros s e [].
  - inversion ND as [|? ? Na ND']; subst. destruct IH as (k & Lk & Ek); auto.
    { intros e ws I. apply Hv; simpl; auto. }
    assert (Iv := Hv a vs (or_introl eq_refl)). apply (In_nth _ _ 0) in Iv as (i & Li & Ei).
    exists (i + k * length vs). assert (NZ : length vs <> 0) by lia.
    split.
    + simpl. nia.
    + intros s e I. simpl. rewrite Nat.mod_add, Nat.div_add by auto.
      rewrite (Nat.mod_small i), (Nat.div_small i) by auto. simpl.
      destruct (in_dec eq_dec_of_eqb e (keys r)) as [J|J].
      * apply Ek; auto.
      * rewrite decode_other by auto. destruct I as [<-|I]; [|contradiction]. rewrite upd_eq; auto.
Qed.
Lemma decode_inj (d : list (name * list nat)) s s' k k' :
  NoDup (keys d) -> (forall e vs, In (e, vs) d -> NoDup vs) -> k < dlen d -> k' < dlen d ->
  (forall e, In e (keys d) -> decode d k s e = decode d k' s' e) -> k = k'.
Proof.
  revert s s' k k'; induction d as [|[a vs] r IH]; intros s s' k k' ND Hv Lk Lk' E.
  - simpl in *. lia.
  - inversion ND as [|? ? Na ND']; subst. simpl in *.
    assert (NZ : length vs <> 0) by (intros Q; rewrite Q in *; lia).
    assert (E1 : k / length vs = k' / length vs).
    { eapply (IH (upd s a (nth (k mod length vs) vs 0)) (upd s' a (nth (k' mod length vs) vs 0))); eauto;
        apply Nat.div_lt_upper_bound; auto. }
    assert (Ea := E a (or_introl eq_refl)). rewrite !decode_other, !upd_eq in Ea by auto.
    assert (E2 : k mod length vs = k' mod length vs).
    { eapply (proj1 (NoDup_nth vs 0)); eauto using Nat.mod_upper_bound. }
    rewrite (Nat.div_mod k (length vs)), (Nat.div_mod k' (length vs)) by auto. congruence.
Qed.

Section Sched.
  Context {S : scalar} {T : Type} `{PT : Payload T}.
  Add Ring KringSd : (kring S).
  Notation net := (tn T).
  Implicit Types (x e : name).
  Variable ev : T -> res (nd S).

  (** the network with the sliced edges fixed to [v] and no longer open *)
  Definition slice_net (n : net) (split : list name) (v : name -> nat) : net :=
    TN (nodes n)
       (map (fun p => if mem (fst p) split then (fst p, Edge (e_dim (snd p)) (Some [v (fst p)])) else p) (edges n))
       (adj n) (filter (fun e => negb (mem e split)) (opens n)) (idc n).

  Section One.
    Variable n : net.
    Variable split : list name.
    Hypothesis R : ready ev n.
    Hypothesis G : good_slices n split.
    Variable pv : T -> list nat -> S.
    Hypothesis PV : forall t a, ev t = Ok a ->
      forall idx, in_shape (nd_shape a) idx = true -> nd_at a idx = pv t idx.
    Notation sz := (size n).
    Notation dom := (fd1_of n ++ fd2_of n split).

    Lemma esum_singles (d : list (name * list nat)) (v s : name -> nat) (g : (name -> nat) -> S) :
      exten g -> NoDup (keys d) -> (forall e vs, In (e, vs) d -> vs = [v e]) ->
      esum d g s = g (fun e => if mem e (keys d) then v e else s e).
    Proof.
      intros E. revert s; induction d as [|[a vs] r IH]; intros s ND Hd.
      - simpl. apply E. auto.
      - inversion ND; subst. assert (Q := Hd a vs (or_introl eq_refl)). subst vs. simpl. rewrite kadd_0_r.
        rewrite IH; auto; [|intros; apply Hd; simpl; auto]. apply E. intros e. unfold upd, mem. simpl.
        fold (mem e (keys r)). destruct (eqb_spec e a) as [->|]; simpl; auto.
        destruct (mem a (keys r)); auto.
    Qed.

    Definition hslice (v : name -> nat) (p : name * list nat) : name * list nat :=
      if mem (fst p) split then (fst p, [v (fst p)]) else p.

    Lemma slice_dom v : tn_dom (prune (slice_net n split v)) = map (hslice v) (tn_dom (prune n)).
    Proof.
      unfold tn_dom, prune, slice_net. cbn [edges with_edges].
      assert (Q : forall l, (forall p, In p l -> get (fst p) (edges n) = Some (snd p)) ->
        map (fun p : name * edge => (fst p, edge_values (snd p)))
          (filter (fun p => fixedb (slice_net n split v) (fst p) || attachedb (slice_net n split v) (fst p) || mem (fst p) (opens (slice_net n split v)))
             (map (fun p => if mem (fst p) split then (fst p, Edge (e_dim (snd p)) (Some [v (fst p)])) else p) l)) =
        map (hslice v) (map (fun p => (fst p, edge_values (snd p)))
          (filter (fun p => fixedb n (fst p) || attachedb n (fst p) || mem (fst p) (opens n)) l))).
      { induction l as [|[e ed] r IH]; intros Hl; auto. cbn [map fst snd].
        assert (Ge := Hl (e, ed) (or_introl eq_refl)). simpl in Ge.
        assert (IHr := IH (fun p I => Hl p (or_intror I))).
        destruct (mem e split) eqn:M; cbn [filter fst snd].
        - assert (At : attachedb n e = true) by (apply (gs_att G), mem_In; auto).
          change (attachedb (slice_net n split v) e) with (attachedb n e). rewrite At, !orb_true_r. cbn [orb map fst snd].
          rewrite IHr. f_equal. unfold hslice. simpl. rewrite M. auto.
        - assert (Qf : fixedb (slice_net n split v) e = fixedb n e).
          { unfold fixedb, slice_net; simpl. clear - M. induction (edges n) as [|[a ad] q IHq]; simpl; auto.
            destruct (mem a split) eqn:Ma; simpl; destruct (eqb_spec e a) as [->|]; auto; congruence. }
          assert (Qo : mem e (opens (slice_net n split v)) = mem e (opens n)).
          { apply eq_true_iff_eq. rewrite !mem_In. simpl. rewrite filter_In, M. simpl. tauto. }
          rewrite Qf, Qo. change (attachedb (slice_net n split v) e) with (attachedb n e).
          destruct (fixedb n e || attachedb n e || mem e (opens n)); auto.
          cbn [map fst snd]. rewrite IHr. f_equal. unfold hslice. simpl. rewrite M. auto. }
      apply Q. intros [e ed] I. apply In_get; auto. apply (wf_edges (rd_wf R)).
    Qed.

    Theorem slice_value_net k o :
      slice_value ev n split (sigma n split k) o = tn_value pv (prune (slice_net n split (sigma n split k))) o.
    Proof.
      set (v := sigma n split k). unfold tn_value.
      assert (P : Permutation (map (hslice v) (dom ++ rest_dom n split)) (tn_dom (prune (slice_net n split v)))).
      { rewrite slice_dom. apply Permutation_map, (dom_prune R G). }
      set (D1 := map (hslice v) dom).
      assert (Er : map (hslice v) (rest_dom n split) = rest_dom n split).
      { rewrite <- (map_id (rest_dom n split)) at 2. apply map_ext_in. intros [e vs] I.
        unfold rest_dom in I. apply dom_of_In in I as [I _]. apply (rest_In split R) in I as [I _].
        unfold gone in I. apply orb_false_iff in I as [_ I]. unfold hslice. simpl. rewrite I. auto. }
      rewrite map_app, Er in P. fold D1 in P.
      assert (KD : keys D1 = keys dom).
      { unfold D1, keys. rewrite map_map. apply map_ext. intros [e vs]. unfold hslice. simpl.
        destruct (mem e split); auto. }
      assert (S1 : forall e vs, In (e, vs) D1 -> vs = [v e] /\ v e < sz e).
      { intros e vs I. apply in_map_iff in I as [[e' ws] [Eq I]]. unfold hslice in Eq. simpl in Eq.
        apply in_app_iff in I as [I|I].
        - assert (F : fixedb n e' = true) by (rewrite <- (fd1_mem R); apply mem_In, in_map_iff; exists (e', ws); auto).
          destruct (mem e' split) eqn:M; [apply mem_In, (gs_unfixed G) in M; congruence|].
          inversion Eq; subst. destruct (fd1_single R _ _ I) as (w & -> & L).
          unfold v. unfold sigma. rewrite (decode_fixed split R k (@env0 name) _ _ I). auto.
        - apply (fd2_In R G) in I as [I ->]. rewrite (proj2 (mem_In e' split) I) in Eq. inversion Eq; subst.
          split; auto. apply (gone_sigma R G k e); [apply (gs_att G); auto|].
          unfold gone. rewrite (proj2 (mem_In e split) I). apply orb_true_r. }
      assert (ND1 : NoDup (keys (D1 ++ rest_dom n split))).
      { rewrite keys_app, KD, <- keys_app. eapply Permutation_NoDup; [apply Permutation_map, Permutation_sym, (dom_prune R G)|].
        unfold tn_dom, prune. rewrite map_map. simpl. apply filter_keys_NoDup, (wf_edges (rd_wf R)). }
      rewrite <- (net_value_dom_perm _ _ _ P ND1).
      transitivity (net_value (D1 ++ rest_dom n split) (aterms ev n) (sub_opens n split) o).
      2:{ apply net_value_terms_ext; auto. unfold aterms, tn_terms, prune. simpl.
        assert (Q : forall l, incl l (nodes n) ->
          Forall2 (same_on (D1 ++ rest_dom n split))
            (map (fun p => Term (n_legs (snd p)) (nd_at (arr_of ev (snd p)))) l) (map (node_term pv) l)).
        { induction l as [|[x d] r IH]; simpl; intros I; constructor.
          - split; auto. intros s Rs. simpl.
            assert (Id : In (x, d) (nodes n)) by (apply I; simpl; auto).
            destruct (rd_data R _ _ Id) as (t & a & E1 & E2 & E3 & _).
            unfold arr_of. rewrite E1, E2. apply (PV E2). rewrite E3. apply in_shape_map.
            intros e Ie. assert (At := node_att R _ _ _ Id Ie).
            destruct (gone n split e) eqn:Ge.
            + rewrite <- (dom_mem R G), <- KD in Ge. apply mem_In, in_map_iff in Ge as [[e' vs] [Eq J]].
              simpl in Eq; subst e'. assert (Js := Rs e vs (proj2 (in_app_iff _ _ _) (or_introl J))).
              destruct (S1 _ _ J) as [-> L]. destruct Js as [<-|[]]. auto.
            + assert (J : In (e, seq 0 (sz e)) (D1 ++ rest_dom n split)).
              { apply in_app_iff; right. apply dom_of_In. split; auto. apply (rest_In split R). auto. }
              apply Rs in J. apply in_seq in J. lia.
          - apply IH. intros p Ip; apply I; simpl; auto. }
        apply Q, incl_refl. }
      unfold net_value. rewrite esum_app.
      rewrite (@esum_singles D1 v).
      - unfold slice_value. eapply esum_start_dep; [apply summand_depends|].
        intros a Ia Na. rewrite KD. destruct (mem a (keys dom)) eqn:M; auto. exfalso.
        rewrite (dom_mem R G) in M. apply Na. unfold rest_dom. rewrite keys_dom_of. apply (rest_In split R).
        split; auto. apply in_app_iff in Ia as [Ia|Ia].
        + apply sub_opens_In in Ia as [Ia _]. apply (rd_open R a Ia).
        + apply labels_In in Ia as [t [It Ie]]. unfold aterms in It. apply in_map_iff in It as [[x d] [<- It]].
          simpl in Ie. eapply (node_att R); eauto.
      - intros s s' E. apply (esum_exten (rest_dom n split) (summand_exten _ _ _)); auto.
      - rewrite KD. apply (dom_NoDup split R).
      - intros e vs I. apply (S1 e vs I).
    Qed.

    (** ** schedules of creations and executions *)

    (** compiling gives the task described in ContractTemplate, in a good initial state *)
    Lemma run_cmds_cells l (st st' : store S) : run_cmds l st = Ok st' -> fixc st' = fixc st.
    Proof.
      revert st; induction l as [|c r IH]; intros st E; simpl in E; [inversion E; auto|].
      destruct (run_cmd c st) as [st1|] eqn:Ec; simpl in E; [|discriminate].
      rewrite (IH _ E). clear - Ec. destruct c; simpl in Ec.
      - destruct (read st src) as [a|]; simpl in Ec; [|discriminate].
        destruct (nd_fix a pos (map (fixc st) cells)); simpl in Ec; inversion Ec; auto.
      - destruct (mapM (read st) lhs) as [l|]; simpl in Ec; [|discriminate].
        destruct path; [destruct (exec_path _ _ _)|destruct (np_einsum _ _)]; simpl in Ec; inversion Ec; auto.
    Qed.
    Lemma exec_cells t (st st' : store S) r : exec t st = Ok (r, st') -> fixc st' = fixc st.
    Proof.
      unfold exec. destruct (run_cmds (t_cmds t) st) as [st1|] eqn:E; simpl; [|discriminate].
      destruct (read st1 (t_out t)); simpl; intros Q; inversion Q; subst. eapply run_cmds_cells; eauto.
    Qed.
  End One.
End Sched.

(** one step of a program using a compiled task: [task[k]], or executing the [h]-th subtask created
    so far (contraction.py:259-283, contractor.py:65-122) *)
Inductive step : Type := Create (k : nat) | Run (h : nat).
Section Steps.
  Context {S : scalar}.
  Fixpoint run_steps (t : task) (ops : list step) (hs : list task) (st : store S) : res (list (nd S)) :=
    match ops with
    | [] => Ok []
    | Create k :: r => do p <- getitem t k st; run_steps t r (hs ++ [fst p]) (snd p)
    | Run h :: r =>
        match nth_error hs h with
        | None => Err IndexError
        | Some t' => do q <- exec t' st; do l <- run_steps t r hs (snd q); Ok (fst q :: l)
        end
    end.
  (** every execution refers to a subtask created before; [c] subtasks exist already *)
  Fixpoint steps_ok (ops : list step) (c : nat) : Prop :=
    match ops with
    | [] => True
    | Create _ :: r => steps_ok r (Datatypes.S c)
    | Run h :: r => h < c /\ steps_ok r c
    end.
  (** the slice created last before each execution *)
  Fixpoint last_created (ops : list step) (last : nat) : list nat :=
    match ops with
    | [] => []
    | Create k :: r => last_created r k
    | Run _ :: r => last :: last_created r last
    end.
  (** the slice each executed subtask was created for *)
  Fixpoint own_slice (ops : list step) (ks : list nat) : list nat :=
    match ops with
    | [] => []
    | Create k :: r => own_slice r (ks ++ [k])
    | Run h :: r => nth h ks 0 :: own_slice r ks
    end.

  Context {T : Type} `{PT : Payload T}.
  Variable ev : T -> res (nd S).
  Variable n : tn T.
  Variable split : list name.
  Hypothesis R : ready ev n.
  Hypothesis G : good_slices n split.
  Variable pv : T -> list nat -> S.
  Hypothesis PV : forall t a, ev t = Ok a ->
    forall idx, in_shape (nd_shape a) idx = true -> nd_at a idx = pv t idx.

  Definition slice_result (k : nat) (r : nd S) : Prop :=
    nd_shape r = map (size n) (sub_opens n split) /\
    forall o, nd_at r o = tn_value pv (prune (slice_net n split (sigma n split k))) o.

  Definition handle (path : option (list (nat * nat))) (t : task) : Prop :=
    t_cmds t = skipn (length (cs1 n)) (t_cmds (the_task n split path)) /\ t_out t = AOut.

  Lemma run_steps_ok path ops : path_ok n path ->
    forall hs last (st : store S),
      good ev n split st -> Forall (handle path) hs ->
      (hs <> [] -> pre st = true /\ forall e, In e split -> fixc st (2, e) = sigma n split last e) ->
      steps_ok ops (length hs) ->
      exists rs, run_steps (the_task n split path) ops hs st = Ok rs /\
        Forall2 slice_result (last_created ops last) rs.
  Proof.
    intros PO. induction ops as [|[k|h] r IH]; intros hs last st Gd Hh Hl Ok_.
    - exists []. simpl. auto.
    - cbn [run_steps last_created]. destruct (getitem_ok R G path k Gd) as (t & st1 & E1 & C1). rewrite E1. cbn [bind fst snd].
      apply IH.
      + apply C1.
      + apply Forall_app. split; auto. constructor; auto. split; apply C1.
      + intros _. split; apply C1.
      + rewrite app_length, Nat.add_comm. exact Ok_.
    - destruct Ok_ as [Lh Ok_]. cbn [run_steps last_created].
      destruct (nth_error hs h) as [t|] eqn:Et; [|apply nth_error_None in Et; lia].
      assert (Ht : handle path t) by (rewrite Forall_forall in Hh; apply Hh; eapply nth_error_In; eauto).
      assert (Hs : hs <> []) by (intros ->; simpl in Lh; lia).
      destruct (Hl Hs) as [P C].
      assert (Cr : created ev n split path last t st).
      { constructor; auto; apply Ht. }
      destruct (exec_ok R G PO Cr) as (a & st2 & E2 & G2 & P2 & Sh & V). rewrite E2. cbn [bind fst snd].
      destruct (IH hs last st2 G2 Hh) as (rs & E3 & F3); auto.
      { intros _. split; auto. intros e I. rewrite (exec_cells _ _ E2). auto. }
      rewrite E3. cbn [bind]. exists (a :: rs). split; auto. constructor; auto.
      split; auto. intros o. rewrite V. apply (slice_value_net R G pv PV).
  Qed.
End Steps.
