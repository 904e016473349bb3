(** complete_delta preserves the value and normalises the open edges. *)
From Verif Require Import Base Scalar NetSpec Sums NetAlg ModelTN TNInv TNOps TNSpec TNMerge TNDelta TNValue TNValue2 TNExact.
Set Implicit Arguments.

(** What the code relies on about the constant tensors it creates (tensor_network.py:503, 511,
    519, 523): numpy.array(1), numpy.eye(d) and a 0/1 vector. *)
Record payload_laws (S : scalar) (T : Type) (PT : Payload T) (pv : T -> list nat -> S) : Prop := {
  pl_one_shape : pshape p_one = Some [];
  pl_one : pv p_one [] = k1;
  pl_eye_shape : forall d, pshape (p_eye d) = Some [Some d; Some d];
  pl_eye : forall d i j, i < d -> j < d -> pv (p_eye d) [i; j] = kdelta (i =? j);
  pl_diag_shape : forall bs, pshape (p_diag bs) = Some [Some (length bs)];
  pl_diag : forall bs i, i < length bs -> pv (p_diag bs) [i] = kdelta (nth i bs false)
}.

Section Delta.
  Context {S : scalar} {T : Type} `{PT : Payload T}.
  Add Ring KringD : (kring S).
  Variable pv : T -> list nat -> S.
  Hypothesis laws : @payload_laws S T PT pv.
  Notation net := (tn T).
  Notation value := (tn_value pv).
  Implicit Types (n : net) (x e m : name).
  Open Scope K_scope.

  Lemma terms_plus_node n x legs t op s :
    prodf (term_at s) (tn_terms pv (plus_node n x legs t op)) =
    prodf (term_at s) (tn_terms pv n) * pv t (map s legs).
  Proof.
    unfold tn_terms, plus_node. simpl. rewrite map_app, prodf_app. simpl. 
    ring.
  Qed.

  Lemma value_plus_node n x legs t o :
    value (plus_node n x legs t false) o =
    esum (tn_dom n) (fun s => summand pv n o s * pv t (map s legs)) env0.
  Proof.
    rewrite value_summand. change (tn_dom (plus_node n x legs t false)) with (tn_dom n).
    apply esum_ext_all. intros s. unfold summand. rewrite terms_plus_node. simpl opens.
    rewrite app_nil_r. ring.
  Qed.

  Lemma dom_in n e ed (s : env (A := name)) s0 :
    ranges (tn_dom n) s0 s -> get e (edges n) = Some ed -> In (s e) (edge_values ed).
  Proof.
    intros [R _] G. apply R. apply get_In. rewrite get_tn_dom, G. auto.
  Qed.
  Lemma edim_get n e d : edim n e = Some d -> exists ed, get e (edges n) = Some ed /\ e_dim ed = Some d.
  Proof. unfold edim. destruct (get e (edges n)) as [ed|]; [eauto|discriminate]. Qed.
  Lemma ranges_lt n e d s s0 : wf n -> edim n e = Some d -> ranges (tn_dom n) s0 s -> s e < d.
  Proof.
    intros W D R. apply edim_get in D as (ed & G & D).
    apply (@values_lt T n e ed d (s e) W G D). eapply dom_in; eauto.
  Qed.

  Lemma summand_indep n o e v s : wf n -> ~ In e (keys (edges n)) ->
    summand pv n o (upd s e v) = summand pv n o s.
  Proof.
    intros W N. apply (@summand_depends S name (opens n) o (tn_terms pv n)).
    intros a Ia. apply upd_neq. intros ->. apply in_app_iff in Ia as [Ia|Ia].
    - apply N, (wf_opens W); auto.
    - apply labels_In in Ia as [t [It Ia]]. unfold tn_terms in It.
      apply in_map_iff in It as [[y nd] [<- Iy]]. simpl in Ia.
      apply In_get in Iy; [|apply W]. apply N. eapply (wf_legs W); eauto.
  Qed.

  (** an extra index tied to an open one by an identity matrix *)
  Lemma value_eye n x e e' d pre suf o :
    wf n -> edim n e = Some d -> ~ In e' (keys (edges n)) ->
    opens n = pre ++ e :: suf ->
    value (with_opens (plus_node (plus_edge n e' (Some d)) x [e; e'] (p_eye d) false) (pre ++ e' :: suf)) o
    = value n o.
  Proof.
    intros W D N O.
    set (n1 := plus_node (plus_edge n e' (Some d)) x [e; e'] (p_eye d) false).
    rewrite (value_summand pv (with_opens n1 _)), value_summand.
    change (tn_dom (with_opens n1 (pre ++ e' :: suf))) with (tn_dom (plus_edge n e' (Some d))).
    unfold plus_edge at 1. unfold tn_dom at 1. simpl edges. rewrite map_app. fold (tn_dom n).
    simpl map. rewrite esum_app. apply esum_ext; [rewrite keys_tn_dom; apply W|].
    intros s R. cbn [esum].
    change (edge_values {| e_dim := Some d; e_fix := None |}) with (seq 0 d).
    pose proof (@ranges_lt n e d s env0 W D R) as Ls.
    rewrite (sumf_ext _ (fun v => kdelta (eqb v (s e)) * summand pv n o s)).
    - rewrite sumf_pin by apply seq_NoDup. rewrite (proj2 (mem_In _ _)) by (apply in_seq; lia).
      cbn [kdelta]. ring.
    - intros v Iv. apply in_seq in Iv.
      rewrite <- (@summand_indep n o e' v s W N).
      unfold summand. rewrite tn_terms_with_opens. unfold n1. rewrite terms_plus_node. simpl opens.
      assert (Nee : e <> e').
      { intros ->. apply N. unfold edim in D. destruct (get e' (edges n)) eqn:G; [|discriminate].
        eapply get_Some_key; eauto. }
      change (map (upd s e' v) [e; e']) with [upd s e' v e; upd s e' v e'].
      rewrite upd_eq, upd_neq by auto. rewrite (pl_eye laws) by lia.
      rewrite O, !map_app. cbn [map]. rewrite upd_eq, (upd_neq s v Nee).
      change (tn_terms pv (plus_edge n e' (Some d))) with (tn_terms pv n).
      change (eqb v (s e)) with (v =? s e)%nat. rewrite (Nat.eqb_sym v).
      destruct (Nat.eqb_spec (s e) v) as [<-|]; cbn [kdelta]; ring.
  Qed.

  (** a fix replaced by a 0/1 vector *)
  Lemma value_unfix n x e ed d fx o :
    wf n -> fix_nodup n -> get e (edges n) = Some ed -> e_dim ed = Some d -> e_fix ed = Some fx ->
    value (plus_node (with_edges n (set e (Edge (Some d) None) (edges n))) x [e]
             (p_diag (map (fun i => mem i fx) (seq 0 d))) false) o = value n o.
  Proof.
    intros W Fx G D F. rewrite value_plus_node.
    set (n1 := with_edges n _).
    assert (G1 : get e (edges n1) = Some (Edge (Some d) None)) by apply get_set_eq.
    assert (ND1 : NoDup (keys (edges n1))) by (apply keys_set_NoDup, W).
    assert (P : Permutation (tn_dom n1) ((e, seq 0 d) :: map dpair (del e (edges n)))).
    { change ((e, seq 0 d) :: map dpair (del e (edges n)))
        with (map dpair ((e, Edge (Some d) None) :: del e (edges n))).
      apply Permutation_map. eapply perm_trans; [apply perm_get_front; eauto|].
      apply perm_skip. apply del_set, W. }
    rewrite (@esum_perm _ _ _ _ _ _ _ P); [|rewrite keys_tn_dom; auto|].
    2:{ intros s1 s2 Es. f_equal; [apply summand_ext; auto|]. f_equal. simpl. rewrite Es; auto. }
    rewrite (value_front pv n e o (wf_edges W) G).
    destruct (wf_fix W _ G F) as (d' & D' & Fa). assert (d' = d) by congruence. subst d'.
    rewrite Forall_forall in Fa.
    transitivity (esum ((e, seq 0 d) :: map dpair (del e (edges n)))
                    (fun s => kdelta (mem (s e) fx) * summand pv n o s) env0).
    - apply esum_ext.
      + simpl. constructor; [apply del_notin|]. rewrite keys_dpair. apply keys_del_NoDup, W.
      + intros s [R _]. assert (Ls : In (s e) (seq 0 d)) by (apply R; simpl; auto).
        apply in_seq in Ls. change (map s [e]) with [s e].
        rewrite (pl_diag laws) by (rewrite map_length, seq_length; lia).
        rewrite nth_indep with (d' := mem 0%nat fx) by (rewrite map_length, seq_length; lia).
        rewrite (map_nth (fun i => mem i fx)), seq_nth by lia. simpl (0 + _)%nat.
        change (summand pv n1 o s) with (summand pv n o s). ring.
    - rewrite esum_restrict with (p := fun v => mem v fx) by apply del_notin. cbn [esum].
      apply sumf_perm. apply NoDup_Permutation.
      + apply NoDup_filter, seq_NoDup.
      + eapply edge_values_nodup; eauto.
      + intros v. rewrite filter_In, mem_In, in_seq. unfold edge_values. rewrite F.
        split; [tauto|]. intros I. specialize (Fa v I). split; auto. lia.
  Qed.

  Lemma nth_true (l : list nat) : forall i, nth i (map (fun _ => true) l) true = true.
  Proof. induction l; intros [|i]; simpl; auto. Qed.
  (** a vector of ones on an edge *)
  Lemma value_ones n x e d o :
    wf n -> edim n e = Some d ->
    value (plus_node n x [e] (p_diag (map (fun _ => true) (seq 0 d))) false) o = value n o.
  Proof.
    intros W D. rewrite value_plus_node, value_summand.
    apply esum_ext; [rewrite keys_tn_dom; apply W|]. intros s R.
    pose proof (@ranges_lt n e d s env0 W D R) as Ls.
    change (map s [e]) with [s e].
    rewrite (pl_diag laws) by (rewrite map_length, seq_length; lia).
    rewrite nth_indep with (d' := true) by (rewrite map_length, seq_length; lia).
    rewrite nth_true. cbn [kdelta]. ring.
  Qed.

  (** how often [e] occurs in [l] *)
  Definition times e (l : list name) : nat := length (filter (eqb e) l).
  Lemma times_In e l : 1 <= times e l -> In e l.
  Proof.
    unfold times. intros L. destruct (filter (eqb e) l) as [|a r] eqn:Q; [simpl in L; lia|].
    assert (I : In a (filter (eqb e) l)) by (rewrite Q; simpl; auto). apply filter_In in I as [I J]. apply eqb_eq in J as ->. auto.
  Qed.
  Lemma times_cons e a l : times e (a :: l) = ((if eqb e a then 1 else 0) + times e l)%nat.
  Proof. unfold times. cbn [filter]. destruct (eqb e a); reflexivity. Qed.
  Lemma times_pos e l : In e l -> 0 < times e l.
  Proof.
    intros I. unfold times. assert (J : In e (filter (eqb e) l)) by (apply filter_In; split; auto; apply eqb_refl).
    destruct (filter (eqb e) l); [destruct J|simpl; lia].
  Qed.

  (** ** the loop over the open edges *)
  Section Loop.
    Variable n0 : net.
    Hypothesis F1 : forall e k, 1 <= k < times e (opens n0) -> ~ In (delta_edge e k) (keys (edges n0)).
    Hypothesis F2 : forall e k, k < times e (opens n0) -> ~ In (delta_node e k) (keys (nodes n0)).
    Hypothesis HD : forall e, In e (opens n0) -> exists d, edim n0 e = Some d.

    Definition new_edge (cnt : list (name * nat)) a : Prop :=
      exists e k c, a = delta_edge e k /\ get e cnt = Some c /\ 1 <= k <= c.
    Definition new_node (cnt : list (name * nat)) x : Prop :=
      exists e k c, x = delta_node e k /\ get e cnt = Some c /\ 1 <= k <= c.
    Definition attached n e : Prop := exists x, In (x, e) (adj n).
    Definition unfixed n e : Prop := exists ed, get e (edges n) = Some ed /\ e_fix ed = None.

    (** the nodes added by complete_delta *)
    Definition delta_like n (nd : node T) : Prop :=
      (n_legs nd = [] /\ n_val nd = Some p_one) \/
      (exists a b d, n_legs nd = [a; b] /\ n_val nd = Some (p_eye d) /\ edim n a = Some d /\ edim n b = Some d) \/
      (exists a bs, n_legs nd = [a] /\ n_val nd = Some (p_diag bs) /\ edim n a = Some (length bs)).
    Lemma delta_like_mono n n' nd :
      (forall a d, edim n a = Some d -> edim n' a = Some d) -> delta_like n nd -> delta_like n' nd.
    Proof.
      intros E [H|[(a & b & d & H1 & H2 & H3 & H4)|(a & bs & H1 & H2 & H3)]].
      - left; auto.
      - right; left. exists a, b, d. auto.
      - right; right. exists a, bs. auto.
    Qed.

    Record dinv nj (cnt : list (name * nat)) (pre suf : list name) : Prop := {
      di_inv : inv nj;
      di_fix : fix_nodup nj;
      di_val : forall o, value nj o = value n0 o;
      di_opens : opens nj = pre ++ suf;
      di_suf : incl suf (opens n0);
      di_old : forall a, In a (keys (edges n0)) -> get a (edges nj) = get a (edges n0);
      di_new : forall a, In a (keys (edges nj)) -> In a (keys (edges n0)) \/ new_edge cnt a;
      di_nodes : forall x, In x (keys (nodes nj)) -> In x (keys (nodes n0)) \/ new_node cnt x;
      di_adj : forall p, In p (adj n0) -> In p (adj nj);
      di_nodup : NoDup pre;
      di_pre : forall a, In a pre -> In a (keys cnt) \/
                 new_edge cnt a /\ attached nj a /\ unfixed nj a;
      di_cnt : forall e, In e (keys cnt) -> In e (opens n0) /\ In e pre;
      di_att : forall e c, get e cnt = Some c -> 1 <= c -> attached nj e;
      di_cnt_nodup : NoDup (keys cnt);
      di_shape : map (edim nj) (opens nj) = map (edim n0) (opens n0);
      di_keep : incl (keys (nodes n0)) (keys (nodes nj));
      di_typed : forall x nd, get x (nodes nj) = Some nd -> get x (nodes n0) = Some nd \/ delta_like nj nd;
      di_newfix : forall a ad, get a (edges nj) = Some ad ->
                  In a (keys (edges n0)) \/ (e_fix ad = None /\ attached nj a);
      di_adjnew : forall x a, In (x, a) (adj nj) ->
                  In (x, a) (adj n0) \/ In a (opens n0) \/ ~ In a (keys (edges n0));
      di_count : forall e, ((match get e cnt with Some c => Datatypes.S c | None => 0 end) + times e suf)%nat = times e (opens n0)
    }.

    Lemma set_nth_app {A} (pre suf : list A) a b :
      set_nth (length pre) b (pre ++ a :: suf) = pre ++ b :: suf.
    Proof. induction pre; simpl; auto. f_equal; auto. Qed.
    Lemma delta_edge_inj e k e' k' : delta_edge e k = delta_edge e' k' -> e = e' /\ k = k'.
    Proof. unfold delta_edge. intros Q; inversion Q. split; auto. lia. Qed.
    Lemma delta_node_inj e k e' k' : delta_node e k = delta_node e' k' -> e = e' /\ k = k'.
    Proof. unfold delta_node. intros Q; inversion Q. split; auto. lia. Qed.

    Lemma new_edge_set cnt e k a :
      match get e cnt with Some c => c <= k | None => True end ->
      new_edge cnt a -> new_edge (set e k cnt) a.
    Proof.
      intros Hk (e1 & k1 & c1 & -> & G & B). destruct (eq_dec_of_eqb e1 e) as [->|N].
      - rewrite G in Hk. exists e, k1, k. rewrite get_set_eq. repeat split; auto; lia.
      - exists e1, k1, c1. rewrite get_set_neq; auto.
    Qed.
    Lemma new_node_set cnt e k a :
      match get e cnt with Some c => c <= k | None => True end ->
      new_node cnt a -> new_node (set e k cnt) a.
    Proof.
      intros Hk (e1 & k1 & c1 & -> & G & B). destruct (eq_dec_of_eqb e1 e) as [->|N].
      - rewrite G in Hk. exists e, k1, k. rewrite get_set_eq. repeat split; auto; lia.
      - exists e1, k1, c1. rewrite get_set_neq; auto.
    Qed.

    Lemma delta_open_correct suf : forall nj cnt pre,
      dinv nj cnt pre suf -> wf n0 ->
      exists n' cnt' pre',
        delta_open (combine (seq (length pre) (length suf)) suf) cnt nj = (n', Ok cnt') /\
        dinv n' cnt' pre' [] /\
        (forall e, In e suf -> In e (keys cnt')) /\ (forall e, In e (keys cnt) -> In e (keys cnt')).
    Proof.
      induction suf as [|e suf IH]; intros nj cnt pre I W0.
      - exists nj, cnt, pre. simpl. split; [auto|]. split; [auto|]. split; [intros e []|auto].
      - assert (Io : In e (opens n0)) by (apply (di_suf I); simpl; auto).
        assert (Ie0 : In e (keys (edges n0))) by (apply (wf_opens W0); auto).
        assert (Nnew : ~ new_edge cnt e).
        { intros (e1 & k1 & c1 & Q & G1 & B). subst e.
          pose proof (di_count I e1) as Q. rewrite G1 in Q. refine (@F1 e1 k1 _ Ie0). lia. }
        cbn [length seq combine delta_open]. destruct (get e cnt) as [k|] eqn:G.
        + destruct (HD _ Io) as [d Dd].
          assert (Ck : 1 <= Datatypes.S k < times e (opens n0)).
          { pose proof (di_count I e) as Q. rewrite G, times_cons, eqb_refl in Q. lia. }
          assert (Dj : edim nj e = Some d).
          { unfold edim in *. rewrite (di_old I); auto. }
          destruct (edim_get _ _ Dj) as (ed & Ge & De).
          assert (Ij : inv nj) by apply (di_inv I). destruct Ij as [Wj Cj].
          assert (Iej : In e (keys (edges nj))) by (eapply get_Some_key; eauto).
          set (e' := delta_edge e (Datatypes.S k)). set (x' := delta_node e (Datatypes.S k)).
          assert (Ne' : ~ In e' (keys (edges nj))).
          { intros Q. apply (di_new I) in Q as [Q|Q]; [exact (@F1 _ _ Ck Q)|].
            destruct Q as (e1 & k1 & c1 & Q & G1 & B). apply delta_edge_inj in Q as [<- <-].
            rewrite G in G1; inversion G1; subst. lia. }
          assert (Nx' : ~ In x' (keys (nodes nj))).
          { intros Q. apply (di_nodes I) in Q as [Q|Q]; [exact (@F2 _ _ (proj2 Ck) Q)|].
            destruct Q as (e1 & k1 & c1 & Q & G1 & B). apply delta_node_inj in Q as [<- <-].
            rewrite G in G1; inversion G1; subst. lia. }
          assert (NNe : e <> NN) by (intros ->; auto).
          rewrite (@mbind_eq _ _ _ _ _ nj nj d).
          2:{ unfold dim_of. cbv [mbind getst]. rewrite Ge, De. reflexivity. }
          set (n1 := plus_node (plus_edge nj e' (Some d)) x' [e; e'] (p_eye d) false).
          assert (EA : add_node x' (Some [e; e']) (p_eye d) false nj = (n1, Ok x')).
          { apply add_node_eye; auto; [discriminate|]. apply (pl_eye_shape laws). }
          rewrite (@mbind_eq _ _ _ _ _ nj n1 x' EA).
          set (n2 := with_opens n1 (pre ++ e' :: suf)).
          rewrite (@mbind_eq _ _ _ _ _ n1 n2 tt).
          2:{ unfold modify, n2. f_equal. f_equal. unfold n1. simpl opens. rewrite app_nil_r, (di_opens I).
              apply set_nth_app. }
          assert (I1 : inv n1).
          { eapply add_node_inv; eauto. simpl. intros [Q|[Q|[]]]; [congruence|discriminate]. split; auto. }
          assert (Hk : match get e cnt with Some c => c <= Datatypes.S k | None => True end) by (rewrite G; lia).
          assert (Ek : keys (edges n2) = keys (edges nj) ++ [e']).
          { unfold n2, n1. simpl. rewrite keys_app; auto. }
          assert (Gn : forall a, a <> e' -> get a (edges n2) = get a (edges nj)).
          { intros a Na. unfold n2, n1. simpl. rewrite get_snoc by auto.
            rewrite (proj2 (eqb_neq _ _) Na); auto. }
          assert (Ge' : get e' (edges n2) = Some (Edge (Some d) None)).
          { unfold n2, n1. simpl. rewrite get_snoc, eqb_refl; auto. }
          assert (Aj : forall p, In p (adj n2) <-> In p (adj nj) \/ p = (x', e) \/ p = (x', e')).
          { intros p. change (adj n2) with (add_adjs (adj nj) [(x', e); (x', e')]). rewrite add_adjs_In. simpl. intuition auto. }
          assert (N' : new_edge (set e (Datatypes.S k) cnt) e').
          { exists e, (Datatypes.S k), (Datatypes.S k). rewrite get_set_eq. repeat split; auto; lia. }
          assert (I2 : dinv n2 (set e (Datatypes.S k) cnt) (pre ++ [e']) suf).
          { constructor.
            - apply open_inv; auto. intros a Ia. apply in_app_iff in Ia. change (edges n1) with (edges n2).
              rewrite Ek, in_app_iff. simpl. simpl in Ia.
              assert (In a (opens nj) \/ a = e') as [Q| ->]; auto.
              { rewrite (di_opens I), in_app_iff. simpl. intuition auto. }
              left. apply (wf_opens Wj); auto.
            - intros a ad fx Ga Fa. destruct (eq_dec_of_eqb a e') as [->|Na].
              + rewrite Ge' in Ga; inversion Ga; subst; discriminate.
              + rewrite Gn in Ga by auto. eapply (di_fix I); eauto.
            - intros o. rewrite <- (di_val I o). apply value_eye; auto. apply (di_opens I).
            - simpl. rewrite <- app_assoc. reflexivity.
            - intros a Ia. apply (di_suf I). simpl; auto.
            - intros a Ia. rewrite Gn; [apply (di_old I); auto|].
              intros ->. exact (@F1 _ _ Ck Ia).
            - intros a. rewrite Ek, in_app_iff. intros [Q|[<-|[]]]; auto.
              apply (di_new I) in Q as [Q|Q]; auto. right. apply new_edge_set; auto.
            - intros y. unfold n2, n1. simpl. rewrite keys_app, in_app_iff. intros [Q|[<-|[]]].
              + apply (di_nodes I) in Q as [Q|Q]; auto. right. apply new_node_set; auto.
              + right. exists e, (Datatypes.S k), (Datatypes.S k). rewrite get_set_eq. repeat split; auto; lia.
            - intros p Ip. apply Aj. left. apply (di_adj I); auto.
            - apply NoDup_snoc; [apply (di_nodup I)|]. intros Q.
              apply Ne', (wf_opens Wj). rewrite (di_opens I). apply in_app_iff; auto.
            - intros a Ia. apply in_app_iff in Ia as [Ia|[<-|[]]].
              + apply (di_pre I) in Ia as [Ia|(Ia & [y Ay] & [ad [Ga Fa]])].
                * left. apply keys_set_In; auto.
                * right. split; [apply new_edge_set; auto|]. split.
                  -- exists y. apply Aj; auto.
                  -- exists ad. rewrite Gn; auto. intros ->. apply Ne'. eapply get_Some_key; eauto.
              + right. split; auto. split.
                * exists x'. apply Aj; auto.
                * eexists; split; [exact Ge'|auto].
            - intros a Ia. apply keys_set_In in Ia as [->|Ia].
              + split; auto. apply in_app_iff; left. apply (di_cnt I). eapply get_Some_key; eauto.
              + apply (di_cnt I) in Ia as [? ?]. split; auto. apply in_app_iff; auto.
            - intros a c. rewrite get_set. destruct (eqb_spec a e) as [->|Na].
              + intros _ _. exists x'. apply Aj; auto.
              + intros Gc Lc. destruct (di_att I _ Gc Lc) as [y Ay]. exists y. apply Aj; auto.
            - apply keys_set_NoDup, (di_cnt_nodup I).
            - rewrite <- (di_shape I), (di_opens I). simpl opens.
              assert (Q : forall a, a <> e' -> edim n2 a = edim nj a).
              { intros a Na. unfold edim. rewrite Gn; auto. }
              assert (Q' : forall l, (forall a, In a l -> In a (opens nj)) -> map (edim n2) l = map (edim nj) l).
              { intros l Hl. apply map_ext_in. intros a Ia. apply Q. intros ->.
                apply Ne', (wf_opens Wj), Hl, Ia. }
              rewrite !map_app. cbn [map]. f_equal; [|f_equal].
              + apply Q'. intros a Ia. rewrite (di_opens I). apply in_app_iff; auto.
              + rewrite Dj. unfold edim. rewrite Ge'. auto.
              + apply Q'. intros a Ia. rewrite (di_opens I). apply in_app_iff; simpl; auto.
            - intros y Iy. simpl. rewrite keys_app, in_app_iff. left. apply (di_keep I); auto.
            - assert (Mono : forall a c, edim nj a = Some c -> edim n2 a = Some c).
              { intros a c Q. unfold edim in *. rewrite Gn; auto. intros ->. apply Ne'.
                destruct (get e' (edges nj)) eqn:Q'; [eapply get_Some_key; eauto|discriminate]. }
              intros y nd. change (nodes n2) with (nodes nj ++ [(x', Node [e; e'] true (Some (p_eye d)))]).
              rewrite get_snoc by auto. destruct (eqb_spec y x') as [->|Ny]; intros Q.
              + inversion Q; subst. right. right; left. exists e, e', d. simpl. repeat split; auto.
                unfold edim. rewrite Ge'. auto.
              + apply (di_typed I) in Q as [Q|Q]; auto. right. eapply delta_like_mono; eauto.
            - intros a ad Ga. destruct (eq_dec_of_eqb a e') as [->|Na].
              + right. rewrite Ge' in Ga; inversion Ga; subst. split; auto. exists x'. apply Aj; auto.
              + rewrite Gn in Ga by auto. destruct (di_newfix I _ Ga) as [Q|[Q [y Ay]]]; auto.
                right. split; auto. exists y. apply Aj; auto.
            - intros y a Q. apply Aj in Q as [Q|[Q|Q]]; [apply (di_adjnew I); auto| |]; inversion Q; subst; auto.
              right; right. intros Q'. exact (@F1 _ _ Ck Q').
            - intros a. pose proof (di_count I a) as Q. rewrite times_cons in Q. rewrite get_set. destruct (eqb a e) eqn:Qa.
              + apply (proj1 (eqb_eq a e)) in Qa. rewrite Qa, G in Q. rewrite Qa. lia.
              + exact Q. }
          replace (Datatypes.S (length pre)) with (length (pre ++ [e'])) by (rewrite app_length; simpl; lia).
          destruct (IH _ _ _ I2 W0) as (n' & cnt' & pre' & E' & I' & K1 & K2).
          exists n', cnt', pre'. split; auto. split; auto. split.
          * intros a [<-|Ia]; auto. apply K2, keys_set_In; auto.
          * intros a Ia. apply K2, keys_set_In; auto.
        + assert (I2 : dinv nj (set e 0%nat cnt) (pre ++ [e]) suf).
          { assert (Hk : match get e cnt with Some c => c <= 0%nat | None => True end) by (rewrite G; auto).
            destruct I as [J1 J2 J3 J4 J5 J6 J7 J8 J9 J10 J11 J12 J13 J14 J15 J16 J17 J18 J19 J20]. constructor; auto.
            - rewrite <- app_assoc; auto.
            - intros a Ia; apply J5; simpl; auto.
            - intros a Ia. apply J7 in Ia as [?|?]; auto. right; apply new_edge_set; auto.
            - intros a Ia. apply J8 in Ia as [?|?]; auto. right; apply new_node_set; auto.
            - apply NoDup_snoc; auto. intros Q. apply J11 in Q as [Q|[Q _]].
              + apply get_None in G. tauto.
              + apply (Nnew Q).
            - intros a Ia. apply in_app_iff in Ia as [Ia|[<-|[]]].
              + apply J11 in Ia as [?|(? & ? & ?)]; [left; apply keys_set_In; auto|].
                right; split; auto. apply new_edge_set; auto.
              + left. apply keys_set_In; auto.
            - intros a Ia. apply keys_set_In in Ia as [->|Ia].
              + split; auto. apply in_app_iff; simpl; auto.
              + apply J12 in Ia as [? ?]; split; auto. apply in_app_iff; auto.
            - intros a c. rewrite get_set. destruct (eqb_spec a e) as [->|Na]; eauto.
              intros Q; inversion Q; lia.
            - apply keys_set_NoDup; auto.
            - intros a. pose proof (J20 a) as Q. rewrite times_cons in Q. rewrite get_set. destruct (eqb a e) eqn:Qa.
              + apply (proj1 (eqb_eq a e)) in Qa. rewrite Qa, G in Q. rewrite Qa. lia.
              + exact Q. }
          replace (Datatypes.S (length pre)) with (length (pre ++ [e])) by (rewrite app_length; simpl; lia).
          destruct (IH _ _ _ I2 W0) as (n' & cnt' & pre' & E' & I' & K1 & K2).
          exists n', cnt', pre'. split; auto. split; auto. split.
          * intros a [<-|Ia]; auto. apply K2, keys_set_In; auto.
          * intros a Ia. apply K2, keys_set_In; auto.
    Qed.

    (** ** the loop over the recorded names *)
    Variables (n1 : net) (cnt : list (name * nat)) (pre : list name).
    Hypothesis I1 : dinv n1 cnt pre [].

    Record ginv nj (R : list (name * nat)) : Prop := {
      gi_inv : inv nj;
      gi_fix : fix_nodup nj;
      gi_val : forall o, value nj o = value n0 o;
      gi_opens : opens nj = opens n1;
      gi_dim : forall a, edim nj a = edim n1 a;
      gi_keys : forall a, In a (keys (edges nj)) <-> In a (keys (edges n1));
      gi_same : forall a, ~ In a (keys cnt) \/ In a (keys R) -> get a (edges nj) = get a (edges n1);
      gi_adj : forall p, In p (adj n1) -> In p (adj nj);
      gi_nodes : forall x, In x (keys (nodes nj)) -> In x (keys (nodes n1)) \/
                   exists e, x = delta_node e 0%nat /\ ~ In e (keys R);
      gi_keep : incl (keys (nodes n0)) (keys (nodes nj));
      gi_done : forall e, In e (keys cnt) -> ~ In e (keys R) -> attached nj e /\ unfixed nj e;
      gi_typed : forall x nd, get x (nodes nj) = Some nd -> get x (nodes n0) = Some nd \/ delta_like nj nd;
      gi_fixes : forall a ad f, get a (edges nj) = Some ad -> e_fix ad = Some f -> get a (edges n1) = Some ad;
      gi_adjnew : forall x a, In (x, a) (adj nj) -> In (x, a) (adj n1) \/ In a (opens n0)
    }.

    Lemma delta_fix_correct R : forall nj,
      ginv nj R -> NoDup (keys R) -> (forall e k, In (e, k) R -> get e cnt = Some k) ->
      exists n', foreach (delta_fix (map snd (adj n0))) R nj = (n', Ok tt) /\ ginv n' [].
    Proof.
      induction R as [|[e k] R IH]; intros nj I ND Hc.
      - exists nj. simpl. auto.
      - assert (Gc : get e cnt = Some k) by (apply Hc; simpl; auto).
        assert (Kc : In e (keys cnt)) by (eapply get_Some_key; eauto).
        inversion ND as [|? ? NR ND']; subst.
        destruct (di_cnt I1 _ Kc) as [Io Ip]. destruct (HD _ Io) as [d Dd].
        assert (Ie0 : In e (keys (edges n0))).
        { apply edim_get in Dd as (ed & Q & _). eapply get_Some_key; eauto. }
        assert (Dj : edim nj e = Some d).
        { rewrite (gi_dim I). unfold edim. rewrite (di_old I1); auto. }
        destruct (edim_get _ _ Dj) as (ed & Ge & De).
        assert (Ij : inv nj) by apply (gi_inv I). destruct Ij as [Wj Cj].
        assert (Iej : In e (keys (edges nj))) by (eapply get_Some_key; eauto).
        assert (NNe : e <> NN) by (intros ->; auto).
        set (x' := delta_node e 0%nat).
        assert (Nx' : ~ In x' (keys (nodes nj))).
        { intros Q. apply (gi_nodes I) in Q as [Q|(e1 & Q & Ne1)].
          - apply (di_nodes I1) in Q as [Q|(e1 & k1 & c1 & Q & _ & B)]; [exact (@F2 _ _ (times_pos _ _ Io) Q)|].
            apply delta_node_inj in Q as [_ Q]. lia.
          - apply delta_node_inj in Q as [Q _]. subst. apply Ne1; simpl; auto. }
        assert (Hstep : exists n2, delta_fix (map snd (adj n0)) (e, k) nj = (n2, Ok tt) /\ ginv n2 R).
        { unfold delta_fix. rewrite (@mbind_eq _ _ _ getst _ nj nj nj eq_refl), Ge.
          assert (Ed : dim_of e nj = (nj, Ok d)).
          { unfold dim_of. cbv [mbind getst]. rewrite Ge, De. reflexivity. }
          destruct (e_fix ed) as [fx|] eqn:Fe.
          - rewrite (@mbind_eq _ _ _ _ _ nj nj d Ed).
            set (nm := with_edges nj (set e (Edge (Some d) None) (edges nj))).
            rewrite (@mbind_eq _ _ _ _ _ nj nm tt) by reflexivity.
            set (t := p_diag (map (fun i => mem i fx) (seq 0 d))).
            assert (Gm : forall a, get a (edges nm) = if eqb a e then Some (Edge (Some d) None) else get a (edges nj)).
            { intros a. unfold nm. simpl. apply get_set. }
            assert (Km : forall a, In a (keys (edges nm)) <-> In a (keys (edges nj))).
            { intros a. unfold nm. simpl. rewrite keys_set_In. split; [intros [->|]|]; auto. }
            assert (Dm : forall a, edim nm a = edim nj a).
            { intros a. unfold edim. rewrite Gm. destruct (eqb_spec a e) as [->|]; auto. }
            assert (Im : inv nm).
            { split.
              - destruct Wj as [A1 A2 A3 A4 A5 A6 A7]. constructor; auto.
                + simpl. apply keys_set_NoDup; auto.
                + intros y nd a Q Ia. apply Km. eapply A3; eauto.
                + intros a Ia. apply Km. apply A6; auto.
                + intros a ad f Q Qf. rewrite Gm in Q. destruct (eqb a e); [inversion Q; subst; discriminate|].
                  eapply A7; eauto.
              - rewrite Km; auto. }
            set (n2 := plus_node nm x' [e] t false).
            assert (EA : add_node x' (Some [e]) t false nm = (n2, Ok x')).
            { apply add_node_typed; auto.
              - intros a [<-|[]]. apply Km; auto.
              - simpl; intuition congruence.
              - unfold t. rewrite (pl_diag_shape laws), map_length, seq_length. simpl. rewrite Dm, Dj. auto. }
            rewrite (@mbind_eq _ _ _ _ _ nm n2 x' EA). exists n2. split; [reflexivity|].
            assert (Aj : forall p, In p (adj n2) <-> In p (adj nj) \/ p = (x', e)).
            { intros p. change (adj n2) with (add_adjs (adj nj) [(x', e)]). rewrite add_adjs_In. simpl. intuition auto. }
            constructor.
            + eapply add_node_inv; eauto. simpl; intuition congruence.
            + intros a ad f Q Qf. change (get a (edges nm) = Some ad) in Q. rewrite Gm in Q.
              destruct (eqb a e); [inversion Q; subst; discriminate|]. eapply (gi_fix I); eauto.
            + intros o. rewrite <- (gi_val I o). unfold n2, nm, t. eapply value_unfix; eauto. apply I.
            + simpl. rewrite app_nil_r. apply I.
            + intros a. change (edim n2 a) with (edim nm a). rewrite Dm. apply I.
            + intros a. change (edges n2) with (edges nm). rewrite Km. apply I.
            + intros a Ha. change (edges n2) with (edges nm). rewrite Gm.
              destruct (eqb_spec a e) as [->|Na]; [tauto|]. apply (gi_same I). simpl. tauto.
            + intros p Q. apply Aj. left. apply (gi_adj I); auto.
            + intros y. unfold n2. simpl. rewrite keys_app, in_app_iff. intros [Q|[<-|[]]].
              * apply (gi_nodes I) in Q as [Q|(e1 & Q & N1)]; auto. right. exists e1. split; auto.
                intros Q'; apply N1; simpl; auto.
              * right. exists e. auto.
            + intros y Iy. simpl. rewrite keys_app, in_app_iff. left. apply (gi_keep I); auto.
            + intros a Ia Na. destruct (eq_dec_of_eqb a e) as [->|Nae].
              * split; [exists x'; apply Aj; auto|]. exists (Edge (Some d) None).
                change (edges n2) with (edges nm). rewrite Gm, eqb_refl. auto.
              * destruct (gi_done I _ Ia) as [[y Ay] [ad [Ga Fa]]]; [simpl; intuition congruence|].
                split; [exists y; apply Aj; auto|]. exists ad.
                change (edges n2) with (edges nm). rewrite Gm, (proj2 (eqb_neq _ _) Nae). auto.
            + intros y nd. change (nodes n2) with (nodes nj ++ [(x', Node [e] true (Some t))]).
              rewrite get_snoc by auto. destruct (eqb_spec y x') as [->|Ny]; intros Q.
              * inversion Q; subst. right. right; right. exists e, (map (fun i => mem i fx) (seq 0 d)).
                simpl. repeat split; auto. change (edim n2 e) with (edim nm e). rewrite Dm, Dj, map_length, seq_length. auto.
              * apply (gi_typed I) in Q as [Q|Q]; auto. right. eapply delta_like_mono; [|exact Q].
                intros a c. change (edim n2 a) with (edim nm a). rewrite Dm. auto.
            + intros a ad f Q Qf. change (get a (edges nm) = Some ad) in Q. rewrite Gm in Q.
              destruct (eqb a e); [inversion Q; subst; discriminate|]. eapply (gi_fixes I); eauto.
            + intros y a Q. apply Aj in Q as [Q|Q]; [apply (gi_adjnew I); auto|inversion Q; subst; auto].
          - destruct (negb (mem e (map snd (adj n0))) && (k =? 0)%nat) eqn:B.
            + rewrite (@mbind_eq _ _ _ _ _ nj nj d Ed).
              set (t := p_diag (map (fun _ => true) (seq 0 d))).
              set (n2 := plus_node nj x' [e] t false).
              assert (EA : add_node x' (Some [e]) t false nj = (n2, Ok x')).
              { apply add_node_typed; auto.
                - intros a [<-|[]]. auto.
                - simpl; intuition congruence.
                - unfold t. rewrite (pl_diag_shape laws), map_length, seq_length. simpl. rewrite Dj. auto. }
              rewrite (@mbind_eq _ _ _ _ _ nj n2 x' EA). exists n2. split; [reflexivity|].
              assert (Aj : forall p, In p (adj n2) <-> In p (adj nj) \/ p = (x', e)).
              { intros p. change (adj n2) with (add_adjs (adj nj) [(x', e)]). rewrite add_adjs_In. simpl. intuition auto. }
              constructor.
              * eapply add_node_inv; eauto. simpl; intuition congruence. split; auto.
              * exact (gi_fix I).
              * intros o. rewrite <- (gi_val I o). apply value_ones; auto.
              * simpl. rewrite app_nil_r. apply I.
              * apply I.
              * apply I.
              * intros a Ha. apply (gi_same I). simpl. tauto.
              * intros p Q. apply Aj. left. apply (gi_adj I); auto.
              * intros y. unfold n2. simpl. rewrite keys_app, in_app_iff. intros [Q|[<-|[]]].
                -- apply (gi_nodes I) in Q as [Q|(e1 & Q & N1)]; auto. right. exists e1. split; auto.
                   intros Q'; apply N1; simpl; auto.
                -- right. exists e. auto.
              * intros y Iy. simpl. rewrite keys_app, in_app_iff. left. apply (gi_keep I); auto.
              * intros a Ia Na. destruct (eq_dec_of_eqb a e) as [->|Nae].
                -- split; [exists x'; apply Aj; auto|]. exists ed. auto.
                -- destruct (gi_done I _ Ia) as [[y Ay] [ad [Ga Fa]]]; [simpl; intuition congruence|].
                   split; [exists y; apply Aj; auto|]. exists ad. auto.
              * intros y nd. change (nodes n2) with (nodes nj ++ [(x', Node [e] true (Some t))]).
                rewrite get_snoc by auto. destruct (eqb_spec y x') as [->|Ny]; intros Q.
                -- inversion Q; subst. right. right; right. exists e, (map (fun _ => true) (seq 0 d)).
                   simpl. repeat split; auto. change (edim n2 e) with (edim nj e). rewrite Dj, map_length, seq_length. auto.
                -- apply (gi_typed I) in Q as [Q|Q]; auto.
              * exact (gi_fixes I).
              * intros y a Q. apply Aj in Q as [Q|Q]; [apply (gi_adjnew I); auto|inversion Q; subst; auto].
            + exists nj. split; [reflexivity|].
              assert (At : attached nj e).
              { apply andb_false_iff in B as [B|B].
                - apply negb_false_iff, mem_In, in_map_iff in B as [[y e1] [<- Q]].
                  exists y. apply (gi_adj I), (di_adj I1); auto.
                - apply Nat.eqb_neq in B. destruct (di_att I1 _ Gc) as [y Q]; [lia|].
                  exists y. apply (gi_adj I); auto. }
              destruct I as [J1 J2 J3 J4 J5 J6 J7 J8 J9 J10 J11 J12 J13 J14]. constructor; auto.
              * intros a Ha. apply J7. simpl; tauto.
              * intros y Q. apply J9 in Q as [Q|(e1 & Q & N1)]; auto. right. exists e1. split; auto.
                intros Q'; apply N1; simpl; auto.
              * intros a Ia Na. destruct (eq_dec_of_eqb a e) as [->|Nae].
                -- split; auto. exists ed; auto.
                -- apply J11; simpl; intuition congruence. }
        destruct Hstep as (n2 & E2 & I2).
        destruct (IH _ I2 ND') as (n' & E' & I'); [intros; apply Hc; simpl; auto|].
        exists n'. split; auto. cbn [foreach]. rewrite (@mbind_eq _ _ _ _ _ nj n2 tt E2). exact E'.
    Qed.
  End Loop.

  (** the network a call of complete_delta can be trusted on: its open edges have bond
      dimensions and the names the method invents are not in use *)
  Definition delta_names_free n : Prop := forall e k,
    (1 <= k < times e (opens n) -> ~ In (delta_edge e k) (keys (edges n))) /\
    (k < times e (opens n) -> ~ In (delta_node e k) (keys (nodes n))).
  (** it is enough that no name the method could invent is in use *)
  Lemma delta_names_unused n : (forall e k, In e (opens n) ->
    ~ In (delta_edge e k) (keys (edges n)) /\ ~ In (delta_node e k) (keys (nodes n))) -> delta_names_free n.
  Proof. intros H e k. split; intros L; apply H; apply times_In; lia. Qed.

  (** what complete_delta adds and keeps *)
  Record delta_grows n n' : Prop := {
    dg_dim : forall a, In a (keys (edges n)) -> edim n' a = edim n a;
    dg_nodes : forall x nd, get x (nodes n') = Some nd -> get x (nodes n) = Some nd \/ delta_like n' nd;
    dg_fix : forall a ed f, get a (edges n') = Some ed -> e_fix ed = Some f -> get a (edges n) = Some ed;
    dg_edges : forall a, In a (keys (edges n')) -> In a (keys (edges n)) \/ attached n' a;
    dg_keys : incl (keys (edges n)) (keys (edges n'));
    dg_adj : forall p, In p (adj n) -> In p (adj n');
    dg_adjnew : forall x a, In (x, a) (adj n') -> In (x, a) (adj n) \/ In a (opens n) \/ ~ In a (keys (edges n));
    dg_opens : incl (opens n) (opens n');
    dg_closed : forall a, ~ In a (opens n) -> In a (keys (edges n)) -> get a (edges n') = get a (edges n)
  }.

  Lemma complete_delta_full n :
    inv n -> fix_nodup n -> delta_names_free n ->
    (forall e, In e (opens n) -> exists d, edim n e = Some d) ->
    ~ In star (keys (nodes n)) ->
    exists n', complete_delta n = (n', Ok tt) /\ inv n' /\ fix_nodup n' /\
      (forall o, value n' o = value n o) /\
      map (edim n') (opens n') = map (edim n) (opens n) /\
      NoDup (opens n') /\ (forall e, In e (opens n') -> attached n' e /\ unfixed n' e) /\
      nodes n' <> [] /\ delta_grows n n'.
  Proof.
    intros I Fx Fr HD Ns. unfold complete_delta.
    rewrite (@mbind_eq _ _ _ getst _ n n n eq_refl).
    assert (Hs : has star (nodes n) = false).
    { destruct (has star (nodes n)) eqn:Q; auto. apply has_In in Q; tauto. }
    rewrite Hs.
    assert (Q : exists n0, (match nodes n with [] => let! _ := add_node star (Some []) p_one false in ret tt | _ => ret tt end) n
                  = (n0, Ok tt) /\ inv n0 /\ edges n0 = edges n /\ opens n0 = opens n /\ adj n0 = adj n /\
                  (forall o, value n0 o = value n o) /\ nodes n0 <> [] /\
                  (forall x, In x (keys (nodes n0)) -> In x (keys (nodes n)) \/ x = star) /\
                  (forall x nd, get x (nodes n0) = Some nd -> get x (nodes n) = Some nd \/ delta_like n0 nd)).
    { destruct (nodes n) as [|p l] eqn:E.
      - set (n0 := plus_node n star [] p_one false).
        assert (EA : add_node star (Some []) p_one false n = (n0, Ok star)).
        { apply add_node_typed; auto.
          - rewrite E; auto.
          - intros a [].
          - rewrite (pl_one_shape laws). auto. }
        exists n0. rewrite (@mbind_eq _ _ _ _ _ n n0 star EA). split; [reflexivity|].
        split; [eapply add_node_inv; eauto|]. split; [reflexivity|].
        split; [unfold n0; simpl; apply app_nil_r|]. split; [reflexivity|]. split.
        + intros o. unfold n0. rewrite value_plus_node, value_summand. apply esum_ext_all.
          intros s. simpl map. rewrite (pl_one laws). ring.
        + unfold n0. simpl. rewrite E. simpl. split; [discriminate|]. split; [intros y [<-|[]]; auto|].
          intros y nd. destruct (eqb y star); [|discriminate]. intros Q; inversion Q; subst. right; left. auto.
      - exists n. rewrite E. split; [reflexivity|]. split; auto. split; auto. split; auto. split; auto. split; auto.
        split; [discriminate|auto]. }
    destruct Q as (n0 & E0 & I0 & Ee & Eo & Ea & Ev & En & Ex & Et).
    rewrite (@mbind_eq _ _ _ _ _ n n0 tt E0).
    assert (Ed : forall a, edim n0 a = edim n a) by (intros a; unfold edim; rewrite Ee; auto).
    assert (F1 : forall e k, 1 <= k < times e (opens n0) -> ~ In (delta_edge e k) (keys (edges n0))).
    { intros e k. rewrite Eo, Ee. apply (Fr e k). }
    assert (F2 : forall e k, k < times e (opens n0) -> ~ In (delta_node e k) (keys (nodes n0))).
    { intros e k. rewrite Eo. intros Q Q'. apply Ex in Q' as [Q'|Q']; [apply (proj2 (Fr e k) Q); auto|discriminate]. }
    assert (HD0 : forall e, In e (opens n0) -> exists d, edim n0 e = Some d).
    { intros e. rewrite Eo, Ed. auto. }
    assert (D0 : dinv n0 n0 [] [] (opens n0)).
    { constructor; auto using incl_refl, NoDup_nil.
      - intros a ad f. rewrite Ee. apply Fx.
      - intros a [].
      - intros a c Q. discriminate.
      - constructor.
      - intros a ad Ga. left. eapply get_Some_key; eauto. }
    destruct (delta_open_correct F1 F2 HD0 D0 (proj1 I0)) as (n1 & cnt & pre & E1 & I1 & K1 & _).
    rewrite Eo in E1. simpl length in E1.
    rewrite (@mbind_eq _ _ _ _ _ n0 n1 cnt E1).
    assert (G0 : ginv n0 n1 cnt n1 cnt).
    { constructor; try apply I1; auto; [reflexivity|]. intros e Q1 Q2; tauto. }
    destruct (delta_fix_correct F2 HD0 I1 G0) as (n' & E' & I').
    { apply I1. }
    { intros e k Q. apply In_get; auto. apply I1. }
    rewrite Ea in E'. exists n'. split; [exact E'|]. split; [apply I'|]. split; [apply I'|].
    assert (Q : opens n' = pre) by (rewrite (gi_opens I'), (di_opens I1); apply app_nil_r).
    split; [intros o; rewrite (gi_val I'); auto|]. split.
    { transitivity (map (edim n1) (opens n1)).
      - rewrite (gi_opens I'). apply map_ext. apply I'.
      - rewrite (di_shape I1), Eo. apply map_ext; auto. }
    split; [rewrite Q; apply I1|]. split.
    - rewrite Q. intros e Ie. apply (di_pre I1) in Ie as [Ie|(Ie & [y Ay] & [ed [Ge Fe]])].
      + apply (gi_done I' _ Ie). intros [].
      + split; [exists y; apply (gi_adj I'); auto|]. exists ed. split; auto.
        rewrite (gi_same I'); auto. left. intros Qe.
        destruct Ie as (e1 & k1 & c1 & -> & G1 & B).
        apply (di_cnt I1) in Qe as [Qe _]. pose proof (di_count I1 e1) as Q1. rewrite G1 in Q1.
        apply (F1 e1 k1); [lia|]. apply (wf_opens (proj1 I0)); auto.
    - assert (Mono : forall a c, edim n0 a = Some c -> edim n' a = Some c).
      { intros a c Qa. rewrite (gi_dim I'). unfold edim in *. rewrite (di_old I1); auto.
        destruct (get a (edges n0)) eqn:Q'; [eapply get_Some_key; eauto|discriminate]. }
      split.
      { intros Qn. destruct (nodes n0) as [|[y nd] l] eqn:Q0; [tauto|].
        pose proof (gi_keep I' y) as Q'. rewrite Q0, Qn in Q'. simpl in Q'. tauto. }
      constructor.
      + intros a Ia. rewrite (gi_dim I'). rewrite <- Ed. unfold edim. rewrite (di_old I1); auto. rewrite Ee; auto.
      + intros y nd Qy. apply (gi_typed I') in Qy as [Qy|Qy]; auto.
        apply Et in Qy as [Qy|Qy]; auto. right. eapply delta_like_mono; eauto.
      + intros a ad f Qa Qf. assert (Q1 := gi_fixes I' _ Qa Qf).
        destruct (di_newfix I1 _ Q1) as [Q2|[Q2 _]]; [|congruence].
        rewrite (di_old I1) in Q1 by auto. rewrite <- Ee; auto.
      + intros a Ia. apply (gi_keys I') in Ia. assert (Ia' := Ia). apply key_get in Ia as [ad Ga].
        destruct (di_newfix I1 _ Ga) as [Q2|[_ [y Q2]]]; [left; rewrite <- Ee; auto|].
        right. exists y. apply (gi_adj I'); auto.
      + intros a Ia. apply (gi_keys I'). rewrite <- Ee in Ia. apply key_get in Ia as [ad Ga].
        rewrite <- (di_old I1) in Ga by (eapply get_Some_key; eauto). eapply get_Some_key; eauto.
      + intros p Ip. apply (gi_adj I'), (di_adj I1). rewrite Ea; auto.
      + intros y a Qa. apply (gi_adjnew I') in Qa as [Qa|Qa].
        * apply (di_adjnew I1) in Qa. rewrite Ea, Eo, Ee in Qa. auto.
        * rewrite Eo in Qa. auto.
      + intros a Ia. rewrite Q. apply (di_cnt I1), K1. rewrite Eo; auto.
      + intros a Na Ia. rewrite (gi_same I').
        * rewrite (di_old I1); rewrite Ee; auto.
        * left. intros Q1. apply (di_cnt I1) in Q1 as [Q1 _]. rewrite Eo in Q1. tauto.
  Qed.

  Lemma complete_delta_correct n :
    inv n -> fix_nodup n -> delta_names_free n ->
    (forall e, In e (opens n) -> exists d, edim n e = Some d) ->
    ~ In star (keys (nodes n)) ->
    exists n', complete_delta n = (n', Ok tt) /\ inv n' /\ fix_nodup n' /\
      (forall o, value n' o = value n o) /\
      map (edim n') (opens n') = map (edim n) (opens n) /\
      NoDup (opens n') /\ (forall e, In e (opens n') -> attached n' e /\ unfixed n' e) /\
      nodes n' <> [].
  Proof.
    intros H1 H2 H3 H4 H5. destruct (complete_delta_full H1 H2 H3 H4 H5) as (n' & Q).
    exists n'. tauto.
  Qed.
End Delta.
