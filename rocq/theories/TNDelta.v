(** rewire and complete_delta keep a network well formed. *)
From Verif Require Import Base Scalar NetSpec ModelTN TNInv TNOps TNSpec TNMerge.
Set Implicit Arguments.

Section Delta.
  Context {T : Type} `{PT : Payload T}.
  Notation net := (tn T).
  Implicit Types (n : net) (x e m : name).

  (** ** rewire *)
  Record rewired n x (leg : nat) (to : name) n' : Prop := {
    rw_edges : exists n1, grows n n1 /\ edges n' = edges n1;
    rw_to : In to (keys (edges n'));
    rw_nodes : exists nd t, get x (nodes n) = Some nd /\ n_val nd = Some t /\ leg < length (n_legs nd) /\
                 nodes n' = set x (Node (set_nth leg to (n_legs nd)) true (Some t)) (nodes n) /\
                 forall y e, In (y, e) (adj n') <->
                   y <> x /\ In (y, e) (adj n) \/ y = x /\ In e (set_nth leg to (n_legs nd));
    rw_opens : opens n' = opens n;
    rw_adj_nodup : NoDup (adj n')
  }.

  Lemma set_nth_In {A} i (v : A) l old a :
    nth_error l i = Some old ->
    In a (set_nth i v l) -> a = v \/ In a l.
  Proof.
    revert i; induction l as [|b r IH]; intros [|i]; simpl; auto; try discriminate.
    - intros _ [->|?]; auto.
    - intros E [->|I]; auto. destruct (IH _ E I); auto.
  Qed.
  Lemma set_nth_In' {A} i (v : A) l old a :
    nth_error l i = Some old -> (a = v \/ In a l /\ a <> old) -> In a (set_nth i v l).
  Proof.
    revert i; induction l as [|b r IH]; intros [|i]; simpl; auto; try discriminate.
    - intros Q; inversion Q; subst. intuition congruence.
    - intros E [->|[[->|I] N]]; auto; right; apply (IH _ E); auto.
  Qed.

  Lemma add_adj1_In (l : list (name * name)) p q : In q (add_adj1 l p) <-> In q l \/ q = p.
  Proof.
    unfold add_adj1. destruct (mem_spec p l).
    - intuition congruence.
    - rewrite in_app_iff. simpl. intuition auto.
  Qed.
  Lemma add_adj1_NoDup (l : list (name * name)) p : NoDup l -> NoDup (add_adj1 l p).
  Proof.
    unfold add_adj1. destruct (mem_spec p l); auto. intros. apply NoDup_snoc; auto.
  Qed.

  Lemma rewire_spec x leg to n n' r :
    wf n -> rewire x leg to n = (n', Ok r) ->
    exists to', rewired n x leg to' n' /\ (to <> NN -> to' = to).
  Proof.
    intros W. unfold rewire. intros E. minv E.
    destruct (get x (nodes n)) as [nd|] eqn:Gx; [|minvs].
    destruct (n_val nd) as [t|] eqn:Vt; [|minvs].
    apply mbind_ok in E as (n0 & d & Ed & E).
    assert (n0 = n).
    { destruct (pshape t) as [sh|]; minvs; auto. destruct (nth_error sh leg); minvs; auto. }
    subst n0. clear Ed. destruct (nth_error (n_legs nd) leg) as [old|] eqn:Lg; [|minvs].
    apply mbind_ok in E as (n1 & to' & Et & E).
    assert (Q : grows n n1 /\ In to' (keys (edges n1)) /\ (to <> NN -> to' = to)).
    { destruct (has to (edges n)) eqn:Ht.
      - minvs. split; [apply grows_refl|]. split; auto. apply has_In; auto.
      - apply add_edge_ok in Et as (G & I & Q). auto. }
    destruct Q as (G & It & Qt). clear Et. destruct (n_mut nd); [|minvs].
    minv E. exists to'. split; auto.
    set (legs := set_nth leg to' (n_legs nd)) in *.
    set (n2 := with_adj (set_legs n1 x legs) (add_adj1 (adj (set_legs n1 x legs)) (x, to'))) in *.
    assert (S1 : set_legs n1 x legs = with_nodes n1 (set x (Node legs true (Some t)) (nodes n1))).
    { unfold set_legs. rewrite (g_nodes G), Gx, Vt. auto. }
    assert (N2 : nodes n2 = set x (Node legs true (Some t)) (nodes n)).
    { unfold n2. rewrite S1. simpl. rewrite (g_nodes G); auto. }
    assert (E2 : edges n2 = edges n1) by (unfold n2; rewrite S1; auto).
    assert (O2 : opens n2 = opens n) by (unfold n2; rewrite S1; simpl; apply (g_opens G)).
    assert (A2 : forall p, In p (adj n2) <-> In p (adj n) \/ p = (x, to')).
    { intros p. unfold n2. simpl. rewrite add_adj1_In, S1. simpl. rewrite (g_adj G). tauto. }
    assert (D2 : NoDup (adj n2)).
    { unfold n2. simpl. apply add_adj1_NoDup. rewrite S1. simpl. rewrite (g_adj G). apply W. }
    assert (Ax : forall e, In (x, e) (adj n) <-> In e (n_legs nd)).
    { intros e. rewrite (wf_adj W). split; [|eauto]. intros (nd' & Q & I).
      rewrite Gx in Q; inversion Q; subst; auto. }
    assert (K : n' = n2 /\ In old legs \/
                n' = with_adj n2 (filter (fun p => negb (eqb (x, old) p)) (adj n2)) /\ ~ In old legs).
    { destruct (mem_spec old legs); minvs; auto. destruct (mem _ _) eqn:Mo in E; minvs; auto. }
    clearbody n2.
    assert (Lt : leg < length (n_legs nd)) by (apply nth_error_Some; congruence).
    destruct K as [[-> Io]|[-> Io]].
    - constructor; auto.
      + exists n1; auto.
      + rewrite E2; auto.
      + exists nd, t. repeat split; auto; fold legs.
        * intros I. apply A2 in I as [I|Q]; [|inversion Q; subst; right; split; auto; eapply set_nth_In'; eauto].
          destruct (eq_dec_of_eqb y x) as [->|N]; auto. right; split; auto. apply Ax in I.
          destruct (eq_dec_of_eqb e old) as [->|]; auto. eapply set_nth_In'; eauto.
        * intros [[N I]|[-> I]]; apply A2; auto.
          apply (set_nth_In _ _ _ _ Lg) in I as [->|I]; auto. left; apply Ax; auto.
    - constructor; simpl; auto.
      + exists n1; auto.
      + rewrite E2; auto.
      + exists nd, t. repeat split; auto; fold legs.
        * rewrite filter_In. intros [I F]. apply A2 in I. apply negb_true_iff, eqb_neq in F.
          destruct I as [I|Q]; [|inversion Q; subst; right; split; auto; eapply set_nth_In'; eauto].
          destruct (eq_dec_of_eqb y x) as [->|N]; auto. right; split; auto. apply Ax in I.
          eapply set_nth_In'; eauto. right; split; auto. congruence.
        * rewrite filter_In, A2, negb_true_iff, eqb_neq. intros [[N I]|[-> I]].
          -- split; auto. congruence.
          -- split; [|congruence].
             apply (set_nth_In _ _ _ _ Lg) in I as [->|I]; auto. left; apply Ax; auto.
      + apply NoDup_filter'; auto.
  Qed.

  Lemma rewired_wf n x leg to n' : rewired n x leg to n' -> wf n -> wf n'.
  Proof.
    intros [(n1 & G & E) It (nd & t & Gx & Vt & Lt & N & A) O D] W.
    pose proof (grows_wf G W) as W1.
    assert (Lg : exists old, nth_error (n_legs nd) leg = Some old).
    { destruct (nth_error (n_legs nd) leg) eqn:Q; eauto. apply nth_error_None in Q; lia. }
    destruct Lg as [old Lg].
    constructor; auto.
    - rewrite N. apply keys_set_NoDup, W.
    - rewrite E. apply (wf_edges W1).
    - intros y nd' e. rewrite N, get_set. destruct (eqb_spec y x) as [->|NE].
      + intros Q; inversion Q; subst; simpl. intros I.
        apply (set_nth_In _ _ _ _ Lg) in I as [->|I]; auto.
        rewrite E. eapply grows_key; eauto. eapply (wf_legs W); eauto.
      + intros Q I. rewrite E. eapply grows_key; eauto. eapply (wf_legs W); eauto.
    - intros y e. rewrite A, N, get_set. destruct (eqb_spec y x) as [->|NE].
      + split.
        * intros [[? _]|[_ I]]; [congruence|]. eexists; split; [reflexivity|]; auto.
        * intros (nd' & Q & I). inversion Q; subst. auto.
      + rewrite <- (wf_adj W). tauto.
    - rewrite O, E. intros a Ia. eapply grows_key; eauto. apply (wf_opens W); auto.
    - rewrite E. apply (wf_fix W1).
  Qed.
  Lemma rewire_wf x leg to n n' r : rewire x leg to n = (n', Ok r) -> wf n -> wf n'.
  Proof.
    intros E W. apply rewire_spec in E as (to' & R & _); auto. eapply rewired_wf; eauto.
  Qed.

  (** ** no edge is called None *)
  Definition clean n n' : Prop := In NN (keys (edges n')) -> In NN (keys (edges n)).
  Lemma clean_refl n : clean n n.
  Proof. unfold clean; auto. Qed.
  Lemma clean_trans n1 n2 n3 : clean n1 n2 -> clean n2 n3 -> clean n1 n3.
  Proof. unfold clean; auto. Qed.
  Lemma clean_ret {A} (a : A) : always clean (ret a).
  Proof. intros n; apply clean_refl. Qed.
  Lemma clean_raise {A} (ex : exn) : always clean (raise (A := A) ex).
  Proof. intros n; apply clean_refl. Qed.
  Lemma clean_lift {A} (m : res A) : always clean (lift m).
  Proof. intros n; apply clean_refl. Qed.
  Lemma clean_modify f : (forall n, clean n (f n)) -> always clean (modify f).
  Proof. intros Hf n; apply Hf. Qed.
  Lemma clean_bind {A B} (m : M A) (f : A -> M B) :
    always clean m -> (forall a, always clean (f a)) -> always clean (mbind m f).
  Proof. apply always_bind. apply clean_trans. Qed.
  Lemma clean_get {A} (f : net -> M A) : (forall n, clean n (fst (f n n))) -> always clean (let! n := getst in f n).
  Proof. intros Hf n. apply Hf. Qed.
  Lemma clean_get' {A} (f : net -> M A) : (forall n, always clean (f n)) -> always clean (let! n := getst in f n).
  Proof. intros Hf n. apply Hf. Qed.
  Lemma clean_foreach {X} (f : X -> M unit) l : (forall a, always clean (f a)) -> always clean (foreach f l).
  Proof. intros. apply always_foreach; auto. apply clean_refl. apply clean_trans. Qed.

  Lemma clean_set n e ed : e <> NN \/ In e (keys (edges n)) -> clean n (with_edges n (set e ed (edges n))).
  Proof.
    unfold clean. simpl. rewrite keys_set_In. intros Hs [Q|?]; auto. subst e. destruct Hs; congruence || auto.
  Qed.
  Lemma clean_snoc n e ed : e <> NN -> clean n (with_edges n (edges n ++ [(e, ed)])).
  Proof. unfold clean. simpl. rewrite keys_app, in_app_iff. simpl. intuition congruence. Qed.
  Lemma clean_same n n' : keys (edges n') = keys (edges n) -> clean n n'.
  Proof. unfold clean. intros ->; auto. Qed.

  Lemma update_dim1_clean e d : always clean (update_dim1 e d).
  Proof.
    unfold update_dim1. apply clean_get. intros n. destruct (get e (edges n)) as [ed|] eqn:G.
    - destruct (e_dim ed) as [y|].
      + destruct d as [z|]; [destruct (y =? z)|]; apply clean_refl.
      + apply clean_set. right. eapply get_Some_key; eauto.
    - apply clean_refl.
  Qed.
  Lemma update_dimension_clean dic : always clean (update_dimension dic).
  Proof. apply clean_foreach. intros; apply update_dim1_clean. Qed.
  Lemma add_edge_clean e d : always clean (add_edge e d).
  Proof.
    unfold add_edge. apply clean_get'. intros n.
    assert (X : forall e', e' <> NN -> always clean
       ((if has e' (edges n) then
          match d with None => ret tt | Some _ => update_dimension [(e', d)] end
          else modify (fun n => with_edges n (edges n ++ [(e', Edge d None)]))) ;; ret e')).
    { intros e' Ne. apply clean_bind; [|intros; apply clean_ret].
      destruct (has e' (edges n)); [destruct d|].
      - apply update_dimension_clean.
      - apply clean_ret.
      - apply clean_modify. intros. apply clean_snoc; auto. }
    destruct e; intros k.
    - cbv [mbind modify ret]. specialize (X (auto_name (idc n)) ltac:(discriminate) (with_idc k (S (idc k)))).
      exact X.
    - apply (X (NI z)); discriminate.
    - apply (X (NS s)); discriminate.
    - apply (X (NT l)); discriminate.
  Qed.
  Lemma graph_connect_clean x es n : ~ In NN es -> clean n (graph_connect x es n).
  Proof.
    intros Hn. unfold graph_connect.
    set (n1 := fold_left _ es n).
    assert (C : clean n n1).
    { unfold n1. clear n1. revert n Hn; induction es as [|e r IH]; simpl; intros n Hn; [apply clean_refl|].
      eapply clean_trans; [|apply IH; tauto]. destruct (has e (edges n)); [apply clean_refl|].
      apply clean_snoc. tauto. }
    exact C.
  Qed.
  Lemma update_node_clean x t : always clean (update_node x t).
  Proof.
    unfold update_node. apply clean_get'. intros n. destruct (get x (nodes n)) as [nd|]; [|apply clean_raise].
    apply clean_bind; [apply clean_modify; intros; apply clean_same; auto|]. intros _.
    destruct (pshape t).
    - destruct (_ <=? _); [apply update_dimension_clean|apply clean_raise].
    - apply update_dimension_clean.
  Qed.
  Lemma open_edge_clean e d : always clean (open_edge e d).
  Proof.
    unfold open_edge. apply clean_get'. intros n. apply clean_bind.
    - destruct (has e (edges n)); [apply clean_ret|]. apply clean_bind; [apply add_edge_clean|].
      intros; apply clean_ret.
    - intros; apply clean_modify. intros; apply clean_same; auto.
  Qed.
  Lemma add_node_clean x es t op : ~ In NN (legs_of es t) -> always clean (add_node x es t op).
  Proof.
    intros Hn. unfold add_node. apply clean_get'. intros n. destruct (has x (nodes n)); [apply clean_raise|].
    assert (X : forall legs mut, ~ In NN legs -> always clean
      (modify (fun n => with_nodes n (nodes n ++ [(x, Node legs mut None)])) ;;
       foreach (add_leg (pshape t)) (enum legs) ;;
       modify (graph_connect x legs) ;;
       update_node x t ;;
       (if op then foreach (fun e => open_edge e None) legs else ret tt) ;;
       ret x)).
    { intros legs mut NL. apply clean_bind; [apply clean_modify; intros; apply clean_same; auto|intros _].
      apply clean_bind; [apply clean_foreach; intros p|intros _].
      { unfold add_leg. destruct (pshape t) as [l|].
        - destruct (nth_error l (fst p)); [|apply clean_raise].
          apply clean_bind; [apply add_edge_clean|intros; apply clean_ret].
        - apply clean_bind; [apply add_edge_clean|intros; apply clean_ret]. }
      apply clean_bind; [apply clean_modify; intros; apply graph_connect_clean; auto|intros _].
      apply clean_bind; [apply update_node_clean|intros _].
      apply clean_bind; [|intros _; apply clean_ret].
      destruct op; [|apply clean_ret]. apply clean_foreach. intros; apply open_edge_clean. }
    unfold legs_of in Hn. destruct es as [l|].
    - intros k. apply (X l true Hn).
    - destruct (pshape t) as [sh|] eqn:Sh; [|intros k; apply clean_refl].
      intros k. apply (X (range_names (length sh)) false Hn).
  Qed.
  Lemma fix_edge_clean e vals c : always clean (fix_edge e vals c).
  Proof.
    unfold fix_edge. apply clean_get. intros n. destruct (get e (edges n)) as [ed|] eqn:G; [|apply clean_refl].
    pose proof (get_Some_key _ _ G) as I.
    destruct (e_dim ed) as [d|]; [|apply clean_refl].
    destruct (forallb _ _); [|apply clean_refl].
    destruct (e_fix ed) as [old|].
    - destruct c; [|apply clean_set; auto].
      destruct (filter _ _), old; try apply clean_refl. apply clean_set; auto.
    - apply clean_set; auto.
  Qed.
  Lemma fix_index_clean i vals : always clean (fix_index i vals).
  Proof.
    unfold fix_index. apply clean_get'. intros n. destruct (nth_error (opens n) i); [|apply clean_raise].
    apply clean_bind; [apply fix_edge_clean|]. intros; apply clean_modify; intros; apply clean_same; auto.
  Qed.
  Lemma fix1_clean n e : wf n -> clean n (fix1 n e).
  Proof.
    intros W. unfold fix1. destruct (get e (edges n)) as [ed|]; [|apply clean_refl].
    destruct (e_fix ed); [|apply clean_refl].
    destruct (fold_map_legs (filter (fun i => negb (eqb e i))) n (dedup_NoDup (adj_nodes n e)))
      as (E1 & _).
    fold (strip_leg (T := T) e) in E1. cbv zeta.
    destruct (mem _ _).
    - apply clean_same. simpl. rewrite E1; auto.
    - unfold clean. simpl. rewrite keys_del_In, E1. tauto.
  Qed.
  Lemma fix_all_clean n : wf n -> clean n (fix_all n).
  Proof.
    unfold fix_all. generalize (keys (edges n)). intros l; revert n; induction l as [|e r IH]; simpl; intros n W.
    - apply clean_refl.
    - eapply clean_trans; [|apply IH, fix1_wf; auto]. apply fix1_clean; auto.
  Qed.
  Lemma merged_clean n es m n' : merged n es m n' -> (m <> NN \/ In m es) -> clean n n'.
  Proof.
    intros Mg Hm I. apply (mg_keys Mg) in I as [<-|[I _]]; auto.
    destruct Hm as [?|I]; [congruence|]. apply (mg_in Mg); auto.
  Qed.
  Lemma merge_edges_clean es mt n n' m : merge_edges es mt n = (n', Ok m) -> wf n -> clean n n'.
  Proof.
    intros E W. apply merge_edges_spec in E as (Mg & Q1 & Q2); auto.
    eapply merged_clean; eauto. destruct (eq_dec_of_eqb mt NN) as [->|N]; auto.
    rewrite Q1 by auto. auto.
  Qed.
  Lemma rewire_clean x leg to : always clean (rewire x leg to).
  Proof.
    unfold rewire. apply clean_get'. intros n. destruct (get x (nodes n)) as [nd|]; [|apply clean_raise].
    destruct (n_val nd) as [t|]; [|apply clean_raise].
    apply clean_bind.
    { destruct (pshape t) as [sh|]; [destruct (nth_error sh leg)|];
        solve [apply clean_ret|apply clean_raise]. }
    intros d. destruct (nth_error (n_legs nd) leg) as [old|]; [|apply clean_raise].
    apply clean_bind; [destruct (has to (edges n)); [apply clean_ret|apply add_edge_clean]|].
    intros to'. destruct (n_mut nd); [|apply clean_raise].
    apply clean_bind.
    { apply clean_modify. intros k. apply clean_same. unfold set_legs. destruct (get x (nodes k)); auto. }
    intros _. apply clean_bind; [apply clean_modify; intros; apply clean_same; auto|]. intros _.
    destruct (mem _ _); [apply clean_ret|]. apply clean_get'. intros k.
    destruct (mem _ _); [|apply clean_raise]. apply clean_modify; intros; apply clean_same; auto.
  Qed.

  (** ** complete_delta *)
  Definition inv n : Prop := wf n /\ ~ In NN (keys (edges n)).

  Lemma inv_clean n n' : inv n -> wf n' -> clean n n' -> inv n'.
  Proof. intros [_ C] W K. split; auto. Qed.

  Lemma add_node_inv x es t op n n' r :
    add_node x es t op n = (n', Ok r) -> ~ In NN (legs_of es t) -> inv n -> inv n'.
  Proof.
    intros E Hn I. eapply inv_clean; eauto.
    - eapply add_node_wf; eauto. apply I.
    - pose proof (@add_node_clean x es t op Hn n) as C. rewrite E in C. exact C.
  Qed.

  Lemma open_inv n l : inv n -> incl l (keys (edges n)) -> inv (with_opens n l).
  Proof. intros [W C] I. split; auto. apply with_opens_wf; auto. Qed.

  Lemma dim_of_spec e n n' d :
    dim_of e n = (n', Ok d) -> n' = n /\ exists ed, get e (edges n) = Some ed /\ e_dim ed = Some d.
  Proof.
    unfold dim_of. intros E. minvs. destruct (get e (edges n)) as [ed|] eqn:G; minvs.
    destruct (e_dim ed) eqn:D; minvs. eauto.
  Qed.

  Lemma delta_open_inv l : forall cnt n n' cnt',
    delta_open l cnt n = (n', Ok cnt') -> inv n ->
    (forall i e, In (i, e) l -> In e (keys (edges n))) -> incl (keys cnt) (keys (edges n)) ->
    inv n' /\ (forall e, In e (keys (edges n)) -> In e (keys (edges n'))) /\ incl (keys cnt') (keys (edges n)).
  Proof.
    induction l as [|[i e] r IH]; intros cnt n n' cnt' E I Hl Hc; cbn [delta_open] in E.
    - minvs. auto.
    - assert (Ie : In e (keys (edges n))) by (apply (Hl i); simpl; auto).
      destruct (get e cnt) as [k|] eqn:G.
      + minv E. apply dim_of_spec in E0 as (-> & ed & Ge & De).
        assert (NL : ~ In NN (legs_of (Some [e; delta_edge e (S k)]) (p_eye a))).
        { simpl. intros [Q|[Q|[]]]; [|discriminate]. subst e. apply I; auto. }
        pose proof (add_node_inv _ _ _ _ E1 NL I) as I1.
        apply add_node_spec in E1 as [-> A]; auto.
        assert (Kn : forall z, In z (keys (edges n)) -> In z (keys (edges n1))).
        { destruct (ad_edges A) as (k1 & Gr & Eq). intros z Iz. rewrite Eq. eapply grows_key; eauto. }
        destruct (IH _ _ _ _ E) as (I' & K' & C').
        * apply open_inv; auto. intros z Iz.
          destruct (Nat.lt_ge_cases i (length (opens n1))) as [Lt|Ge'].
          -- destruct (nth_error (opens n1) i) eqn:Q; [|apply nth_error_None in Q; lia].
             apply (set_nth_In _ _ _ _ Q) in Iz as [->|Iz].
             ++ apply (ad_legs A). simpl; auto.
             ++ destruct I1 as [W1 _]. apply (wf_opens W1); auto.
          -- assert (Z : forall {X} (v : X) l i, length l <= i -> set_nth i v l = l).
             { intros X v l; induction l; intros [|j]; simpl; intros; auto; [lia|]. f_equal; apply IHl; lia. }
             rewrite Z in Iz by auto. destruct I1 as [W1 _]. apply (wf_opens W1); auto.
        * simpl. intros j z Iz. apply Kn. apply (Hl j). simpl; auto.
        * simpl. intros z Iz. apply Kn. apply keys_set_In in Iz as [->|Iz]; auto.
        * simpl in *. split; auto. split; auto.
          intros z Iz. assert (Q := C' z Iz).
          (* the new counter only holds names of the old open edges *)
          clear - E Iz Hl Hc Ie IH.
          assert (X : forall l cnt n n' cnt', delta_open l cnt n = (n', Ok cnt') ->
                      forall z, In z (keys cnt') -> In z (keys cnt) \/ exists i, In (i, z) l).
          { clear. induction l as [|[i e] r IH]; intros cnt n n' cnt' E z I; cbn [delta_open] in E.
            - minvs; auto.
            - destruct (get e cnt) as [k|].
              + minv E. apply IH with (z := z) in E; auto. rewrite keys_set_In in E. simpl.
                destruct E as [[->|?]|[j ?]]; eauto.
              + apply IH with (z := z) in E; auto. rewrite keys_set_In in E. simpl.
                destruct E as [[->|?]|[j ?]]; eauto. }
          destruct (X _ _ _ _ _ E z Iz) as [Q|[j Q]].
          -- apply keys_set_In in Q as [->|Q]; auto.
          -- apply (Hl j); simpl; auto.
      + destruct (IH _ _ _ _ E) as (I' & K' & C'); auto.
        * intros j z Iz. apply (Hl j); simpl; auto.
        * intros z Iz. apply keys_set_In in Iz as [->|Iz]; auto.
  Qed.

  Lemma delta_fix_inv old p n n' r :
    delta_fix old p n = (n', Ok r) -> inv n ->
    inv n' /\ (forall e, In e (keys (edges n)) -> In e (keys (edges n'))).
  Proof.
    destruct p as [e k]. unfold delta_fix. intros E I. minv E.
    destruct (get e (edges n)) as [ed|] eqn:G; [|minvs].
    assert (NL : forall t, ~ In NN (legs_of (Some [e]) t)).
    { intros t. simpl. intros [Q|[]]. subst e. apply get_Some_key in G. apply I; auto. }
    assert (AD : forall x t op n n' r, add_node x (Some [e]) t op n = (n', Ok r) -> inv n ->
                 inv n' /\ (forall e, In e (keys (edges n)) -> In e (keys (edges n')))).
    { intros x t op m m' r' E' I'. split; [eapply add_node_inv; eauto; apply NL|].
      apply add_node_spec in E' as [_ A]; [|apply NL]. destruct (ad_edges A) as (k1 & Gr & Eq).
      intros z Iz. rewrite Eq. eapply grows_key; eauto. }
    destruct (e_fix ed) as [fx|] eqn:F.
    - minv E. apply dim_of_spec in E0 as (-> & ed' & Ge & De).
      apply AD in E1 as [I1 K1].
      + split; auto. intros z Iz. apply K1. simpl. apply keys_set_In; auto.
      + destruct I as [W C]. split.
        * destruct W as [W1 W2 W3 W4 W5 W6 W7]. constructor; simpl; auto.
          -- apply keys_set_NoDup; auto.
          -- intros x nd z Gx Iz. apply keys_set_In. right. eapply W3; eauto.
          -- intros z Iz. apply keys_set_In. auto.
          -- intros z zd fz. rewrite get_set. destruct (eqb_spec z e) as [->|]; eauto.
             intros Q; inversion Q; discriminate.
        * simpl. rewrite (set_keys_same _ _ _ G). auto.
    - destruct (negb (mem e old) && (k =? 0)); minvs; auto.
      apply dim_of_spec in E0 as (-> & ed' & Ge & De). apply AD in E1; auto.
  Qed.

  Lemma complete_delta_inv n n' r : complete_delta n = (n', Ok r) -> inv n -> inv n'.
  Proof.
    unfold complete_delta. intros E I. minv E. destruct (has star (nodes n)); [minvs; auto|].
    minv E.
    assert (Q : inv n0 /\ (forall e, In e (keys (edges n)) -> In e (keys (edges n0)))).
    { destruct (nodes n).
      - minv E0. split; [eapply add_node_inv; eauto; simpl; auto|].
        apply add_node_spec in E2 as [_ A]; [|simpl; auto]. destruct (ad_edges A) as (k1 & Gr & Eq).
        intros z Iz. rewrite Eq. eapply grows_key; eauto.
      - minvs; auto. }
    destruct Q as [I0 K0]. apply delta_open_inv in E1 as (I1 & K1 & C1); auto.
    - clear - E I1. revert n1 E I1. induction a0 as [|p l IH]; intros n1 E I1; cbn [foreach] in E; minvs; auto.
      apply delta_fix_inv in E0 as [I2 _]; auto. eauto.
    - intros i e Ie. apply K0. destruct I as [W _]. apply (wf_opens W).
      unfold enum in Ie. apply in_combine_r in Ie; auto.
    - intros z [].
  Qed.
End Delta.
