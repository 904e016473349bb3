(** Merging the results of the subtasks (ContractionTask._merge) and the value of a whole task. *)
From Verif Require Import Base Scalar NetSpec Sums NetAlg ModelArray ArrayProofs ModelTN TNInv TNOps
  TNExact TNSpec ModelContract ContractFix ContractNet ContractTemplate ContractExec.
Set Implicit Arguments.
Open Scope nat_scope.

Lemma nth_map_in (A B : Type) (f : A -> B) l i a b : i < length l -> nth i (map f l) b = f (nth i l a).
Proof.
  revert i; induction l as [|x r IH]; simpl; intros i L; [lia|]. destruct i; auto. apply IH; lia.
Qed.
Lemma map_nth_seq (A : Type) (l : list A) a : map (fun i => nth i l a) (seq 0 (length l)) = l.
Proof.
  induction l as [|x r IH]; simpl; auto. f_equal. rewrite <- seq_shift, map_map. auto.
Qed.
Lemma map_filter_seq (A : Type) (p : A -> bool) (l : list A) a :
  map (fun i => nth i l a) (filter (fun i => p (nth i l a)) (seq 0 (length l))) = filter p l.
Proof.
  induction l as [|x r IH]; auto. cbn [length seq filter nth].
  rewrite <- seq_shift.
  assert (Q : forall q (m : list nat), filter q (map Datatypes.S m) = map Datatypes.S (filter (fun i => q (Datatypes.S i)) m)).
  { intros q m. induction m as [|y m IHm]; simpl; auto. destruct (q (Datatypes.S y)); simpl; rewrite IHm; auto. }
  rewrite Q. cbn [nth]. destruct (p x); cbn [map nth]; rewrite map_map; cbn [nth]; rewrite IH; auto.
Qed.

Lemma NoDup_map_in (A B : Type) (f : A -> B) l :
  (forall a b, In a l -> In b l -> f a = f b -> a = b) -> NoDup l -> NoDup (map f l).
Proof.
  induction l as [|a r IH]; intros Hf ND; simpl; [constructor|]. inversion ND; subst. constructor.
  - intros I. apply in_map_iff in I as [b [Eq I]]. apply Hf in Eq; simpl; auto. subst; auto.
  - apply IH; auto. intros; apply Hf; simpl; auto.
Qed.

(** the inverse of a permutation of [0 .. m-1] *)
Lemma perm_inverse (l : list nat) m i :
  Permutation l (seq 0 m) -> i < m ->
  index_of i (map (fun j => index_of j l) (seq 0 m)) = nth i l 0.
Proof.
  intros P L. assert (ND : NoDup l) by (eapply Permutation_NoDup; [symmetry; eauto|apply seq_NoDup]).
  assert (Ll : length l = m) by (apply Permutation_length in P; rewrite seq_length in P; auto).
  assert (Il : forall j, In j l <-> j < m).
  { intros j. split; intros I.
    - apply (Permutation_in _ P), in_seq in I. lia.
    - apply (Permutation_in _ (Permutation_sym P)), in_seq. lia. }
  assert (Hn : nth i l 0 < m) by (apply Il, nth_In; lia).
  apply nth_error_NoDup_index.
  - apply NoDup_map_in; [|apply seq_NoDup].
    intros a b Ia Ib Eq. apply in_seq in Ia. apply in_seq in Ib.
    apply (@index_of_inj nat _ a b l); auto; apply Il; lia.
  - rewrite nth_error_map, (nth_error_nth' _ 0) by (rewrite seq_length; auto).
    rewrite seq_nth by auto. simpl. f_equal.
    apply nth_error_NoDup_index; auto. apply nth_error_nth'. lia.
Qed.

Section Sum.
  Context {S : scalar}.
  Add Ring KringS : (kring S).

  Lemma fold_nd_add (l : list (nd S)) a :
    nd_shape (fold_left nd_add l a) = nd_shape a /\
    forall o, nd_at (fold_left nd_add l a) o = kadd (nd_at a o) (sumf (fun b => nd_at b o) l).
  Proof.
    revert a; induction l as [|b r IH]; intros a; simpl.
    - split; auto. intros o. ring.
    - destruct (IH (nd_add a b)) as [E1 E2]. split; auto. intros o. rewrite E2. simpl. ring.
  Qed.
  Lemma nd_sum_at (l : list (nd S)) : l <> [] ->
    (exists a, In a l /\ nd_shape (nd_sum l) = nd_shape a) /\
    forall o, nd_at (nd_sum l) o = sumf (fun b => nd_at b o) l.
  Proof.
    destruct l as [|a r]; [congruence|]. intros _. simpl.
    destruct (fold_nd_add r a) as [E1 E2]. split; auto. exists a; auto.
  Qed.

  (** [merge_add] adds every result at its place *)
  Lemma merge_add_ok sub lst_id f (g : nat -> list nat) (rs : list (nat * nd S)) (acc : nd S) (sh : list nat) :
    (forall k b, In (k, b) rs ->
       mapM (fun e => match get e (digits sub f k) with Some v => Ok v | None => Err KeyError end) lst_id
       = Ok (g k) /\ nd_shape b = sh) ->
    skipn (length lst_id) (nd_shape acc) = sh ->
    exists r, merge_add sub lst_id f rs acc = Ok r /\ nd_shape r = nd_shape acc /\
      forall idx, nd_at r idx =
        kadd (nd_at acc idx)
             (sumf (fun p => kmul (kdelta (eqb (firstn (length lst_id) idx) (g (fst p))))
                                  (nd_at (snd p) (skipn (length lst_id) idx))) rs).
  Proof.
    revert acc; induction rs as [|[k b] r IH]; intros acc Hg Hs; simpl.
    - exists acc. split; auto. split; auto. intros idx. ring.
    - destruct (Hg k b (or_introl eq_refl)) as [E1 E2]. rewrite E1. cbn [bind].
      assert (Lg : length (g k) = length lst_id).
      { revert E1. clear. generalize (g k). induction lst_id as [|e q IH]; simpl; intros l E.
        - inversion E; auto.
        - destruct (get e _); simpl in E; [|discriminate].
          destruct (mapM _ q) as [w|]; simpl in E; [|discriminate]. inversion E; subst. simpl.
          rewrite (IH w); auto. }
      unfold nd_add_at at 1. rewrite Lg, Hs, E2, eqb_refl. cbn [bind].
      match goal with |- context [merge_add _ _ _ _ ?a] => destruct (IH a) as (r' & Q1 & Q2 & Q3) end.
      + intros; apply Hg; simpl; auto.
      + auto.
      + exists r'. split; auto. split; auto. intros idx. rewrite Q3. cbn [nd_at].
        match goal with |- context [if ?c then _ else _] => destruct c end; simpl; ring.
  Qed.
End Sum.

Section Merge.
  Context {S : scalar} {T : Type} `{PT : Payload T}.
  Add Ring KringM : (kring S).
  Notation net := (tn T).
  Implicit Types (x e : name).
  Variable ev : T -> res (nd S).
  Variable n : net.
  Variable split : list name.
  Hypothesis R : ready ev n.
  Hypothesis G : good_slices n split.
  Notation sz := (size n).
  Notation dom := (fd1_of n ++ fd2_of n split).
  Notation sub := (sub_opens n split).

  (** the open edges that are sliced *)
  Notation lst_id := (filter (fun e => negb (mem e sub)) (opens n)).

  Lemma lst_id_In e : In e lst_id <-> In e (opens n) /\ In e split.
  Proof.
    rewrite filter_In, negb_true_iff, mem_false, sub_opens_In.
    destruct (in_dec eq_dec_of_eqb e split); tauto.
  Qed.

  Lemma dom_nonempty e vs : In (e, vs) dom -> vs <> [].
  Proof.
    rewrite in_app_iff. intros [I|I].
    - apply (fd1_single R) in I as [v [-> _]]. discriminate.
    - apply (fd2_In R G) in I as [I ->]. pose proof (gs_dim G e I). destruct (sz e); simpl; [lia|discriminate].
  Qed.
  Lemma dom_sub e : In e (keys dom) -> ~ In e sub.
  Proof.
    intros I J. apply sub_opens_In in J as [J1 J2]. destruct (rd_open R e J1) as [_ F].
    apply mem_In in I. rewrite (dom_mem R G) in I. unfold gone in I. rewrite F in I. simpl in I.
    apply mem_In in I. tauto.
  Qed.

  Lemma digits_ok k :
    mapM (fun e => match get e (digits sub (the_fix n split) k) with Some v => Ok v | None => Err KeyError end)
         lst_id = Ok (map (sigma n split k) lst_id).
  Proof.
    apply mapM_ok. intros e I. apply lst_id_In in I as [Io Is].
    rewrite (the_fix_entries R G).
    assert (Id : In (e, seq 0 (sz e)) dom) by (apply in_app_iff; right; apply (fd2_In R G); auto).
    destruct (@digits_spec sub (stg n) dom k (@env0 name) e (seq 0 (sz e))) as (i & E1 & L & E2).
    - apply (dom_NoDup split R).
    - apply dom_sub.
    - auto.
    - eapply dom_nonempty; eauto.
    - rewrite E1. unfold sigma. rewrite E2. rewrite seq_length in L. rewrite seq_nth; auto.
  Qed.

  Lemma dlen_pos : 0 < dlen dom.
  Proof.
    assert (Q : forall d : list (name * list nat), (forall e vs, In (e, vs) d -> vs <> []) -> 0 < dlen d).
    { induction d as [|[e vs] r IH]; simpl; intros Hd; [lia|].
      assert (0 < dlen r) by (apply IH; intros; eapply Hd; eauto).
      specialize (Hd e vs (or_introl eq_refl)). destruct vs; [congruence|]. simpl. nia. }
    apply Q. apply dom_nonempty.
  Qed.

  (** ** putting the slices together *)
  Lemma slices_total o u :
    map u (opens n) = o ->
    sumf (fun k => kmul (kdelta (eqb (map u lst_id) (map (sigma n split k) lst_id)))
                        (slice_value ev n split (sigma n split k) (map u sub)))
         (seq 0 (dlen dom))
    = net_value (dom ++ rest_dom n split) (aterms ev n) (opens n) o.
  Proof.
    intros Eo. unfold sigma, slice_value.
    rewrite (@esum_decode S dom (fun s => kmul (kdelta (eqb (map u lst_id) (map s lst_id)))
        (esum (rest_dom n split) (fun s => kmul (kdelta (eqb (map s sub) (map u sub)))
            (prodf (term_at s) (aterms ev n))) s)) (@env0 name)).
    unfold net_value. rewrite (esum_app dom (rest_dom n split)). apply esum_ext_all. intros s.
    rewrite <- (@esum_mul_l S name _ (rest_dom n split)
      (fun s => kmul (kdelta (eqb (map s sub) (map u sub))) (prodf (term_at s) (aterms ev n)))
      (fun s => kdelta (eqb (map u lst_id) (map s lst_id))) s).
    2:{ intros s1 s2 E. f_equal. f_equal. apply map_ext_in. intros e I. apply E.
        unfold rest_dom. rewrite keys_dom_of, (rest_In split R). intros [Gn _].
        apply lst_id_In in I as [_ I]. unfold gone in Gn. rewrite (proj2 (mem_In e split) I) in Gn.
        rewrite orb_true_r in Gn. discriminate. }
    apply esum_ext_all. intros s'. rewrite (kmul_assoc S). f_equal. rewrite <- kdelta_andb. f_equal.
    rewrite <- Eo.
    apply eq_true_iff_eq. rewrite andb_true_iff, !eqb_eq.
    split.
    - intros [E1 E2]. apply map_ext_in_iff. intros e I.
      destruct (in_dec eq_dec_of_eqb e split) as [Is|Ns].
      + symmetry. apply (proj1 map_ext_in_iff E1). apply lst_id_In; auto.
      + apply (proj1 map_ext_in_iff E2). apply sub_opens_In; auto.
    - intros E. assert (Q := proj1 map_ext_in_iff E). split; apply map_ext_in.
      + intros e I. symmetry. apply Q. apply lst_id_In in I; tauto.
      + intros e I. apply Q. apply sub_opens_In in I; tauto.
  Qed.

  Definition merge_ok : Prop := (forall e, In e (opens n) -> ~ In e split) \/ dlen dom <> 1.

  Lemma out_env (o : list nat) : length o = length (opens n) -> exists u, map u (opens n) = o.
  Proof.
    intros L. exists (upds (@env0 name) (opens n) o). apply upds_map; auto. apply (rd_opens R).
  Qed.

  Lemma no_open_slice : (forall e, In e (opens n) -> ~ In e split) -> sub = opens n /\ lst_id = [].
  Proof.
    intros N. assert (E : sub = opens n).
    { unfold sub_opens. apply filter_all. intros e I. apply negb_true_iff, mem_false; auto. }
    split; auto. rewrite E. clear - R. induction (opens n) as [|e r IH]; auto.
    cbn [filter]. rewrite (proj2 (mem_In e (e :: r))) by (simpl; auto). cbn [negb].
    assert (Q : forall l, incl l (e :: r) -> filter (fun a => negb (mem a (e :: r))) l = []).
    { induction l as [|a l IHl]; auto. intros I. cbn [filter].
      rewrite (proj2 (mem_In a (e :: r))) by (apply I; simpl; auto). cbn [negb]. apply IHl.
      intros b Ib; apply I; simpl; auto. }
    apply Q. intros a Ia; simpl; auto.
  Qed.

  (** merging any results, one per subtask: the result of subtask [k] is added at the positions
      that agree with slice [k] on the sliced open edges *)
  Lemma merge_places path (rs : list (nat * nd S)) :
    merge_ok -> map fst rs = seq 0 (dlen dom) ->
    (forall k r, In (k, r) rs -> nd_shape r = map sz sub) ->
    exists r, merge (the_task n split path) rs = Ok r /\ nd_shape r = map sz (opens n) /\
      forall u : name -> nat,
        nd_at r (map u (opens n)) =
        sumf (fun p => kmul (kdelta (eqb (map u lst_id) (map (sigma n split (fst p)) lst_id)))
                            (nd_at (snd p) (map u sub))) rs.
  Proof.
    intros MO Ks Rs. unfold merge. cbn [t_opens t_len t_shape t_sub t_fix the_task].
    rewrite (the_fix_entries R G), (entries_length (stg n)).
    assert (Ne : map snd rs <> []).
    { intros E. pose proof dlen_pos as L. destruct rs; [|discriminate]. simpl in Ks.
      destruct (dlen dom); [lia|discriminate]. }
    assert (Short : (forall e, In e (opens n) -> ~ In e split) ->
       exists r, Ok (nd_sum (map snd rs)) = Ok r /\ nd_shape r = map sz (opens n) /\
         forall u : name -> nat,
          nd_at r (map u (opens n)) =
          sumf (fun p => kmul (kdelta (eqb (map u lst_id) (map (sigma n split (fst p)) lst_id)))
                              (nd_at (snd p) (map u sub))) rs).
    { intros N. destruct (no_open_slice N) as [E1 E2].
      destruct (nd_sum_at Ne) as [[a [Ia Sh]] At].
      eexists; split; [reflexivity|]. split.
      - rewrite Sh. apply in_map_iff in Ia as [[k r] [<- I]]. simpl. rewrite (Rs k r I), E1; auto.
      - intros u. rewrite At, sumf_map. apply sumf_ext. intros [k r] _. rewrite E2, E1. simpl. ring. }
    rewrite map_length.
    destruct (dlen dom =? 1) eqn:L1.
    - apply Nat.eqb_eq in L1. destruct MO as [N|N]; [|congruence]. apply Short; auto.
    - destruct (length (opens n) =? 0) eqn:L0.
      + simpl. apply Nat.eqb_eq in L0. apply Short. destruct (opens n); [intros ? []|discriminate].
      + simpl. rewrite <- (the_fix_entries R G).
        clear L0 L1 Short Ne.
        set (m := length (opens n)).
        set (P := filter (fun i => negb (mem (nth i (opens n) NN) sub)) (seq 0 m)).
        set (Q := map (fun e => index_of e (opens n)) sub).
        set (sh := map sz (opens n)).
        assert (MP : map (fun i => nth i (opens n) NN) P = lst_id) by (apply (map_filter_seq (fun e => negb (mem e sub)))).
        assert (MQ : map (fun i => nth i (opens n) NN) Q = sub).
        { unfold Q. rewrite map_map. rewrite <- (map_id sub) at 2. apply map_ext_in. intros e I.
          apply sub_opens_In in I as [I _]. apply nth_error_nth. apply index_of_nth; auto. }
        assert (ML : map (fun i => nth i (opens n) NN) (P ++ Q) = lst_id ++ sub) by (rewrite map_app, MP, MQ; auto).
        assert (Lt : forall i, In i (P ++ Q) -> i < m).
        { intros i. rewrite in_app_iff. intros [I|I].
          - apply filter_In in I as [I _]. apply in_seq in I. lia.
          - apply in_map_iff in I as [e [<- I]]. apply sub_opens_In in I as [I _]. apply index_of_lt; auto. }
        assert (PL : Permutation (P ++ Q) (seq 0 m)).
        { apply NoDup_Permutation; [|apply seq_NoDup|].
          - apply NoDup_map_inv with (f := fun i => nth i (opens n) NN). rewrite ML.
            apply NoDup_app_iff. split; [apply NoDup_filter', (rd_opens R)|].
            split; [apply NoDup_filter', (rd_opens R)|].
            intros e I J. apply filter_In in I as [_ I]. apply negb_true_iff, mem_false in I. tauto.
          - intros i. split; intros I; [apply in_seq; apply Lt in I; lia|]. apply in_seq in I.
            destruct (mem (nth i (opens n) NN) sub) eqn:M.
            + apply in_app_iff. right. unfold Q. apply in_map_iff. exists (nth i (opens n) NN).
              split; [|apply mem_In; auto]. apply nth_error_NoDup_index; [apply (rd_opens R)|].
              apply nth_error_nth'. unfold m in I; lia.
            + apply in_app_iff. left. apply filter_In. rewrite M. split; auto. apply in_seq; auto. }
        assert (LL : length (P ++ Q) = m) by (apply Permutation_length in PL; rewrite seq_length in PL; auto).
        assert (LP : length P = length lst_id) by (rewrite <- MP, map_length; auto).
        assert (Shl : map (fun k => nth k sh 0) (P ++ Q) = map sz (lst_id ++ sub)).
        { rewrite <- ML, map_map. apply map_ext_in. intros i I. apply Lt in I.
          apply (nth_map_in sz (opens n) NN 0). auto. }
        destruct (@merge_add_ok S sub lst_id (the_fix n split) (fun k => map (sigma n split k) lst_id) rs
                    (nd_transpose (nd_zeros S sh) (P ++ Q)) (map sz sub)) as (r & E1 & E2 & E3).
        { intros k b I. split; [apply digits_ok|apply (Rs k b I)]. }
        { cbn [nd_transpose nd_shape nd_zeros]. rewrite Shl, map_app.
          rewrite skipn_app, map_length, Nat.sub_diag.
          rewrite (skipn_all2 (map sz lst_id)) by (rewrite map_length; auto). auto. }
        rewrite E1. cbn [bind]. eexists; split; [reflexivity|].
        cbn [nd_transpose nd_shape nd_zeros] in E2. split.
        * cbn [nd_transpose nd_shape]. rewrite E2, map_map. transitivity (map (fun i => nth i sh 0) (seq 0 m)).
          -- apply map_ext_in. intros i I. apply in_seq in I.
             assert (Ii : In i (P ++ Q)) by (apply (Permutation_in _ (Permutation_sym PL)), in_seq; auto).
             rewrite (nth_map_in (fun k => nth k sh 0) (P ++ Q) 0 0) by (apply index_of_lt; auto).
             f_equal. apply nth_error_nth. apply index_of_nth; auto.
          -- unfold m, sh. rewrite <- (map_length sz (opens n)). apply map_nth_seq.
        * intros u. set (o := map u (opens n)). cbn [nd_transpose nd_at].
          rewrite map_length, seq_length.
          assert (EI : map (fun i => nth (index_of i (map (fun i => index_of i (P ++ Q)) (seq 0 m))) o 0) (seq 0 m)
                       = map u lst_id ++ map u sub).
          { rewrite <- map_app, <- ML, map_map.
            transitivity (map (fun i => nth (nth i (P ++ Q) 0) o 0) (seq 0 m)).
            - apply map_ext_in. intros i I. apply in_seq in I. rewrite perm_inverse; auto; lia.
            - rewrite <- LL.
              transitivity (map (fun i => u (nth i (opens n) NN)) (map (fun i => nth i (P ++ Q) 0) (seq 0 (length (P ++ Q)))));
                [|rewrite map_nth_seq; auto].
              rewrite map_map. apply map_ext_in. intros i I. apply in_seq in I. unfold o.
              apply (nth_map_in u (opens n) NN 0). apply Lt, nth_In. lia. }
          rewrite EI, E3.
          rewrite firstn_app, map_length, Nat.sub_diag, firstn_all2 by (rewrite map_length; auto).
          rewrite skipn_app, map_length, Nat.sub_diag, skipn_all2 by (rewrite map_length; auto).
          simpl firstn. simpl skipn. rewrite app_nil_r, app_nil_l.
          cbn [nd_transpose nd_zeros nd_at]. rewrite kadd_0_l. reflexivity.
  Qed.

  Lemma merge_value path rs :
    merge_ok -> map fst rs = seq 0 (dlen dom) ->
    (forall k r, In (k, r) rs -> nd_shape r = map sz sub /\
                                 forall o, nd_at r o = slice_value ev n split (sigma n split k) o) ->
    exists r, merge (the_task n split path) rs = Ok r /\ nd_shape r = map sz (opens n) /\
      forall o, length o = length (opens n) ->
                nd_at r o = net_value (dom ++ rest_dom n split) (aterms ev n) (opens n) o.
  Proof.
    intros MO Ks Rs. destruct (@merge_places path rs MO Ks) as (r & E & Sh & V); [apply Rs|].
    exists r. split; auto. split; auto. intros o L. destruct (out_env o L) as [u Eu].
    rewrite <- Eu at 1. rewrite V, <- (slices_total u Eu), <- Ks, sumf_map. apply sumf_ext.
    intros [k b] I. cbn [fst snd]. destruct (Rs k b I) as [_ Q]. rewrite Q. auto.
  Qed.

  (** ** a whole task *)
  Theorem execute_ok path (st : store S) :
    path_ok n path -> good ev n split st -> merge_ok ->
    exists r st', execute (the_task n split path) st = Ok (r, st') /\ good ev n split st' /\
      nd_shape r = map sz (opens n) /\
      forall o, length o = length (opens n) ->
                nd_at r o = net_value (dom ++ rest_dom n split) (aterms ev n) (opens n) o.
  Proof.
    intros PO Gd MO. unfold execute.
    destruct (load_data_ok R path Gd) as (st1 & E1 & G1 & _). rewrite E1. cbn [bind].
    destruct (@exec_slices_ok S T ev n split R G path (seq 0 (t_len (the_task n split path))) st1 PO G1)
      as (rs & st2 & E2 & G2 & K2 & V2). rewrite E2. cbn [bind fst snd].
    destruct (@merge_value path rs MO) as (r & E3 & Sh & V); auto.
    { rewrite K2. cbn [t_len the_task]. rewrite (the_fix_entries R G), (entries_length (stg n)). auto. }
    rewrite E3. cbn [bind]. exists r, st2. auto.
  Qed.
End Merge.
