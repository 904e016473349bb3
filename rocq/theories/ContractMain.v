(** Compiling and executing a network gives the value of the network. *)
From Verif Require Import Base Scalar NetSpec Sums NetAlg ModelArray ArrayProofs ModelTN TNInv TNOps
  TNExact TNSpec ModelContract ContractFix ContractNet ContractTemplate ContractExec ContractMerge.
Set Implicit Arguments.
Open Scope nat_scope.

(** ** pairwise orders *)

(** every step names two different current tensors and replaces them by one; one tensor remains *)
Fixpoint valid_order (cur : list name) (o : order) : Prop :=
  match o with
  | [] => length cur = 1
  | (x, y, z) :: r => x <> y /\ In x cur /\ In y cur /\ valid_order (remove1 y (remove1 x cur) ++ [z]) r
  end.

Lemma remove1_length x l : In x l -> length l = Datatypes.S (length (remove1 x l)).
Proof.
  induction l as [|y r IH]; simpl; [tauto|]. intros I. destruct (eqb_spec x y) as [->|N]; auto.
  simpl. f_equal. apply IH. destruct I; [congruence|auto].
Qed.
Lemma remove1_In x y l : x <> y -> In y l -> In y (remove1 x l).
Proof.
  induction l as [|z r IH]; simpl; auto. intros N I. destruct (eqb_spec x z) as [->|Nz].
  - destruct I; [congruence|auto].
  - simpl. destruct I; auto.
Qed.

Lemma order_path_ok o cur :
  valid_order cur o -> exists p, order_path cur o = Ok p /\ valid_path (length cur) p /\ (o <> [] -> p <> []).
Proof.
  revert cur; induction o as [|[[x y] z] r IH]; intros cur V; simpl.
  - exists []. simpl in *. auto.
  - destruct V as (N & Ix & Iy & V). pose proof (remove1_In _ N Iy) as Iy'.
    rewrite (proj2 (mem_In x cur) Ix), (proj2 (mem_In y (remove1 x cur)) Iy'). simpl.
    destruct (IH _ V) as (p & E & Vp & _). rewrite E. simpl. eexists; split; [reflexivity|].
    split; [|discriminate]. simpl. split; [intros Q; apply N; eapply index_of_inj; eauto|].
    split; [apply index_of_lt; auto|]. split; [apply index_of_lt; auto|].
    rewrite app_length in Vp. simpl in Vp.
    pose proof (remove1_length x cur Ix). pose proof (remove1_length y _ Iy').
    replace (length cur - 1) with (length (remove1 y (remove1 x cur)) + 1) by lia. auto.
Qed.

Section Main.
  Context {S : scalar} {T : Type} `{PT : Payload T}.
  Add Ring KringMm : (kring S).
  Notation net := (tn T).
  Implicit Types (x e : name).
  Variable ev : T -> res (nd S).

  (** the network without its idle edges: closed edges that are neither attached nor fixed *)
  Definition prune (n : net) : net :=
    with_edges n (filter (fun p => fixedb n (fst p) || attachedb n (fst p) || mem (fst p) (opens n)) (edges n)).

  Section One.
    Variable n : net.
    Variable split : list name.
    Hypothesis R : ready ev n.
    Hypothesis G : good_slices n split.
    Notation sz := (size n).
    Notation dom := (fd1_of n ++ fd2_of n split).

    Lemma fix_attr_entries k st d :
      (forall e vs, In (e, vs) d -> (fix_attr n e = Some (Some vs) /\ vs <> []) \/ fix_attr n e = Some None) ->
      exists st', update_fix_dict (fix_attr n) (fix_dict k d) st = Ok (fix_dict k d, st') /\
        arr st' = arr (S := S) st /\ data st' = data st /\ pre st' = pre st /\
        forall c, fixc st' c = fixc st c \/
                  exists e v w, c = (k, e) /\ In (e, v :: w) d /\ fix_attr n e = Some (Some (v :: w)) /\ fixc st' c = v.
    Proof.
      revert st; induction d as [|[e vs] r IH]; intros st H.
      - exists st. simpl. repeat split; auto.
      - cbn [fix_dict map update_fix_dict fst snd].
        assert (Hr : forall e vs, In (e, vs) r -> (fix_attr n e = Some (Some vs) /\ vs <> []) \/ fix_attr n e = Some None)
          by (intros; apply H; simpl; auto).
        destruct (H e vs (or_introl eq_refl)) as [[E Ne]|E]; rewrite E.
        + destruct vs as [|v w]; [congruence|].
          destruct (IH (set_cell st (k, e) v) Hr) as (st' & E1 & E2 & E3 & E4 & E5).
          fold (fix_dict k r). rewrite E1. cbn [bind fst snd]. exists st'. split; auto. split; auto. split; auto.
          split; auto. intros c. destruct (E5 c) as [Q|(e' & v' & w' & -> & Q1 & Q2 & Q3)].
          * rewrite Q. unfold set_cell; cbn [fixc].
            match goal with |- context [@eqb ?A ?i ?x ?y] => destruct (@eqb_spec A i x y) as [->|] end; auto.
            right. exists e, v, w. simpl. auto.
          * right. exists e', v', w'. simpl. auto.
        + destruct (IH st Hr) as (st' & E1 & E2 & E3 & E4 & E5).
          fold (fix_dict k r). rewrite E1. cbn [bind fst snd]. exists st'. split; auto. split; auto. split; auto.
          split; auto. intros c. destruct (E5 c) as [Q|(e' & v' & w' & -> & Q1 & Q2 & Q3)]; auto.
          right. exists e', v', w'. simpl. auto.
    Qed.

    Lemma update_fix_dict_app fx (f g : list ((name * list nat) * cell)) (st : store S) :
      update_fix_dict fx (f ++ g) st =
      do p <- update_fix_dict fx f st; do q <- update_fix_dict fx g (snd p); Ok (fst p ++ fst q, snd q).
    Proof.
      revert st; induction f as [|[[e vs] c] r IH]; intros st; simpl.
      - destruct (update_fix_dict fx g st) as [[? ?]|]; auto.
      - destruct (fx e) as [[[|v w]|]|]; auto; rewrite IH.
        + destruct (update_fix_dict fx r (set_cell st c v)) as [[? s1]|]; simpl; auto.
          destruct (update_fix_dict fx g s1) as [[? ?]|]; simpl; auto.
        + destruct (update_fix_dict fx r st) as [[? s1]|]; simpl; auto.
          destruct (update_fix_dict fx g s1) as [[? ?]|]; simpl; auto.
    Qed.

    Lemma update_fix_ok path (st : store S) :
      cells_ok n st ->
      exists st', update_fix (fix_attr n) (the_task n split path) st = Ok (the_task n split path, st') /\
        data st' = data st /\ pre st' = false /\ cells_ok n st'.
    Proof.
      intros C. unfold update_fix. cbn [t_fix the_task]. unfold the_fix. rewrite update_fix_dict_app.
      destruct (@fix_attr_entries 1 st (fd1_of n)) as (s1 & E1 & A1 & D1 & P1 & C1).
      { intros e vs I. left. pose proof (fd1_single R _ _ I) as (v & -> & _).
        apply fd1_In in I as [ed [I F]]. unfold fix_attr.
        rewrite (In_get _ _ _ (wf_edges (rd_wf R)) I), F. split; auto; discriminate. }
      destruct (@fix_attr_entries 2 s1 (fd2_of n split)) as (s2 & E2 & A2 & D2 & P2 & C2).
      { intros e vs I. right. apply (fd2_In R G) in I as [I ->].
        pose proof (gs_unfixed G e I) as F. pose proof (att_key R _ (gs_att G e I)) as K.
        apply key_get in K as [ed Ge]. unfold fix_attr, fixedb in *. rewrite Ge in *.
        destruct (e_fix ed); [discriminate|auto]. }
      rewrite E1. cbn [bind fst snd]. rewrite E2. cbn [bind fst snd].
      eexists; split; [reflexivity|]. cbn [data pre set_pre]. split; [congruence|]. split; auto.
      intros e v I. cbn [fixc set_pre].
      assert (Q : fixc s1 (1, e) = v).
      { destruct (C1 (1, e)) as [Q|(e' & v' & w & Q1 & Q2 & Q3 & Q4)].
        - rewrite Q. apply C; auto.
        - inversion Q1; subst e'. rewrite Q4.
          assert (ND : NoDup (keys (fd1_of n))) by (rewrite (fd1_keys R); apply NoDup_filter', (wf_edges (rd_wf R))).
          apply (In_get _ _ _ ND) in Q2. apply (In_get _ _ _ ND) in I. congruence. }
      destruct (C2 (1, e)) as [Q'|(e' & v' & w & Q1 & _)]; [congruence|inversion Q1].
    Qed.

    Definition order_okb (o : order) : Prop := o = [] \/ valid_order (keys (nodes n)) o.

    Lemma compile_ok memory cost o :
      order_okb o -> (cost * 48 <= memory * 2 ^ 30)%Z ->
      exists path st, compile ev memory cost n o split = Ok (the_task n split path, st) /\
        path_ok n path /\ good ev n split st.
    Proof.
      intros Oo Mem. unfold compile.
      replace (memory * 2 ^ 30 <? cost * 3 * 2 ^ 4)%Z with false by (symmetry; apply Z.ltb_ge; lia).
      rewrite (template_ok R G).
      assert (Q : exists path, the_path n o = Ok path /\ path_ok n path).
      { destruct Oo as [->|V]; [exists None; simpl; auto|].
        destruct o as [|q r]; [exists None; simpl; auto|].
        destruct (order_path_ok _ _ V) as (p & E & Vp & Ne). unfold the_path. rewrite E. simpl.
        exists (Some p). split; auto. simpl. split; [apply Ne; discriminate|].
        unfold keys in Vp. rewrite map_length in Vp. auto. }
      destruct Q as (path & Ep & Po). rewrite Ep. cbn [bind fst snd].
      rewrite (node_data_ok R). cbn [bind].
      destruct (@update_fix_ok path (set_data (the_data ev n) (the_store n))) as (st & E & D & P & C).
      { intros e v I. unfold set_data, with_data, the_store. cbn [fixc fix_cells].
        assert (ND : NoDup (keys (fd1_of n))) by (rewrite (fd1_keys R); apply NoDup_filter', (wf_edges (rd_wf R))).
        rewrite (In_get _ _ _ ND I). auto. }
      rewrite E. exists path, st. split; auto. split; auto. constructor; auto.
      + rewrite D. apply the_data_ok; auto.
      + intros Pt. congruence.
    Qed.

    (** ** the domain *)
    Lemma dom_prune : Permutation (dom ++ rest_dom n split) (tn_dom (prune n)).
    Proof.
      assert (ND2 : NoDup (keys (tn_dom (prune n)))).
      { unfold tn_dom, prune, keys. rewrite map_map. simpl. apply filter_keys_NoDup, (wf_edges (rd_wf R)). }
      assert (ND1 : NoDup (keys (dom ++ rest_dom n split))).
      { rewrite keys_app. unfold rest_dom. rewrite keys_dom_of. apply NoDup_app_iff.
        split; [apply (dom_NoDup split R)|]. split; [apply NoDup_filter', (live_NoDup R)|].
        intros e I J. apply mem_In in I. rewrite (dom_mem R G) in I. apply (rest_In split R) in J.
        destruct J; congruence. }
      apply NoDup_Permutation; [eapply NoDup_map_inv; exact ND1|eapply NoDup_map_inv; exact ND2|].
      intros [e vs]. unfold tn_dom. rewrite in_map_iff. split.
      - rewrite !in_app_iff. intros I. assert (Q : exists ed, get e (edges n) = Some ed /\ vs = edge_values ed /\ fixedb n e || attachedb n e = true).
        { destruct I as [[I|I]|I].
          - apply fd1_In in I as [ed [I F]]. apply (In_get _ _ _ (wf_edges (rd_wf R))) in I.
            exists ed. split; auto. unfold edge_values. rewrite F. split; auto.
            rewrite (fixedb_get _ _ I), F. auto.
          - apply (fd2_In R G) in I as [I ->]. pose proof (gs_att G e I) as At. pose proof (gs_unfixed G e I) as Fe.
            pose proof (att_dim R _ At) as De. destruct (key_get _ _ (att_key R _ At)) as [ed Ge].
            exists ed. split; auto. rewrite At, orb_true_r. split; auto.
            unfold edge_values. rewrite (fixedb_get _ _ Ge) in Fe. unfold edim in De at 1. rewrite Ge in De.
            destruct (e_fix ed); [discriminate|]. rewrite De. auto.
          - unfold rest_dom in I. apply dom_of_In in I as [I ->]. apply (rest_In split R) in I as [Gn At].
            unfold gone in Gn. apply orb_false_iff in Gn as [Fe _].
            pose proof (att_dim R _ At) as De. destruct (key_get _ _ (att_key R _ At)) as [ed Ge].
            exists ed. split; auto. rewrite At, orb_true_r. split; auto.
            unfold edge_values. rewrite (fixedb_get _ _ Ge) in Fe. unfold edim in De at 1. rewrite Ge in De.
            destruct (e_fix ed); [discriminate|]. rewrite De. auto. }
        destruct Q as (ed & Ge & -> & C). exists (e, ed). split; auto.
        unfold prune; simpl. apply filter_In. split; [apply get_In; auto|]. simpl. rewrite C; auto.
      - intros [[e' ed] [Eq I]]. simpl in Eq. inversion Eq; subst e' vs. clear Eq.
        unfold prune in I; simpl in I. apply filter_In in I as [I C]. simpl in C.
        assert (Ge := In_get _ _ _ (wf_edges (rd_wf R)) I).
        assert (C' : fixedb n e || attachedb n e = true).
        { apply orb_true_iff in C as [C|C]; auto. apply mem_In in C. destruct (rd_open R e C) as [-> _].
          apply orb_true_r. }
        rewrite !in_app_iff. destruct (fixedb n e) eqn:Fe.
        + left; left. apply fd1_In. exists ed. split; auto. rewrite (fixedb_get _ _ Ge) in Fe.
          unfold edge_values. destruct (e_fix ed); auto; discriminate.
        + simpl in C'. pose proof (att_dim R _ C') as De. unfold edim in De at 1. rewrite Ge in De.
          assert (Ev : edge_values ed = seq 0 (sz e)).
          { rewrite (fixedb_get _ _ Ge) in Fe. unfold edge_values. destruct (e_fix ed); [discriminate|]. rewrite De; auto. }
          rewrite Ev. destruct (mem e split) eqn:M.
          * left; right. apply (fd2_In R G). apply mem_In in M. auto.
          * right. unfold rest_dom. apply dom_of_In. split; auto. apply (rest_In split R).
            unfold gone. rewrite Fe, M. auto.
    Qed.

    Variable pv : T -> list nat -> S.
    Hypothesis PV : forall t a, ev t = Ok a ->
      forall idx, in_shape (nd_shape a) idx = true -> nd_at a idx = pv t idx.

    Lemma in_shape_map (f g : name -> nat) l :
      (forall e, In e l -> f e < g e) -> in_shape (map g l) (map f l) = true.
    Proof.
      induction l as [|e r IH]; simpl; intros L; auto.
      rewrite (proj2 (Nat.ltb_lt (f e) (g e))) by auto. simpl. auto.
    Qed.

    Lemma total_value o :
      net_value (dom ++ rest_dom n split) (aterms ev n) (opens n) o = tn_value pv (prune n) o.
    Proof.
      unfold tn_value.
      assert (ND1 : NoDup (keys (dom ++ rest_dom n split))).
      { eapply Permutation_NoDup; [apply Permutation_map, Permutation_sym, dom_prune|].
        unfold tn_dom, prune. rewrite map_map. simpl. apply filter_keys_NoDup, (wf_edges (rd_wf R)). }
      rewrite <- (net_value_dom_perm (tn_terms pv (prune n)) (opens (prune n)) o dom_prune ND1).
      apply net_value_terms_ext; auto. unfold aterms, tn_terms, prune. simpl.
      assert (Q : forall l, incl l (nodes n) ->
        Forall2 (same_on (dom ++ rest_dom n split))
          (map (fun p => Term (n_legs (snd p)) (nd_at (arr_of ev (snd p)))) l) (map (node_term pv) l)).
      { induction l as [|[x d] r IH]; simpl; intros I; constructor.
        - split; auto. intros s Rs. simpl.
          assert (Id : In (x, d) (nodes n)) by (apply I; simpl; auto).
          destruct (rd_data R _ _ Id) as (t & a & E1 & E2 & E3 & _).
          unfold arr_of. rewrite E1, E2. apply (PV E2). rewrite E3. apply in_shape_map.
          intros e Ie. assert (At := node_att R _ _ _ Id Ie).
          destruct (fixedb n e) eqn:Fe.
          + rewrite <- (fd1_mem R) in Fe. apply mem_In, in_map_iff in Fe as [[e' vs] [Eq J]]. simpl in Eq; subst e'.
            assert (Js := Rs e vs (proj2 (in_app_iff _ _ _) (or_introl (proj2 (in_app_iff _ _ _) (or_introl J))))).
            destruct (fd1_single R _ _ J) as (v & -> & L). destruct Js as [<-|[]]. auto.
          + assert (J : In (e, seq 0 (sz e)) (dom ++ rest_dom n split)).
            { destruct (mem e split) eqn:M.
              - apply in_app_iff; left; apply in_app_iff; right. apply (fd2_In R G). apply mem_In in M; auto.
              - apply in_app_iff; right. apply dom_of_In. split; auto. apply (rest_In split R).
                unfold gone. rewrite Fe, M; auto. }
            apply Rs in J. apply in_seq in J. lia.
        - apply IH. intros p Ip; apply I; simpl; auto. }
      apply Q, incl_refl.
    Qed.

    (** compile and execute *)
    Theorem contract_ready memory cost o :
      order_okb o -> (cost * 48 <= memory * 2 ^ 30)%Z -> merge_ok n split ->
      exists t st r st',
        compile ev memory cost n o split = Ok (t, st) /\ execute t st = Ok (r, st') /\
        nd_shape r = map sz (opens n) /\
        forall idx, length idx = length (opens n) -> nd_at r idx = tn_value pv (prune n) idx.
    Proof.
      intros Oo Mem MO. destruct (compile_ok memory cost Oo Mem) as (path & st & E & Po & Gd).
      destruct (execute_ok R G path Po Gd MO) as (r & st' & E2 & _ & Sh & V).
      exists (the_task n split path), st, r, st'. split; auto. split; auto. split; auto.
      intros idx L. rewrite V by auto. apply total_value.
    Qed.
  End One.
End Main.
