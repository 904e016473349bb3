(** Executing a compiled task: every subtask computes the value of its slice, and merging the
    subtasks gives the value of the network. *)
From Verif Require Import Base Scalar NetSpec Sums NetAlg ModelArray ArrayProofs ModelTN TNInv TNOps
  TNExact TNSpec ModelContract ContractFix ContractNet ContractTemplate.
Set Implicit Arguments.
Open Scope nat_scope.

(** ** mixed radix *)
Section Radix.
  Context {S : scalar}.
  Add Ring KringR : (kring S).

  Lemma sumf_seq_shift (g : nat -> S) a k :
    sumf g (seq a k) = sumf (fun i => g (a + i)) (seq 0 k).
  Proof.
    revert g a; induction k as [|k IH]; intros g a; simpl; auto.
    rewrite Nat.add_0_r. f_equal. rewrite IH, (IH (fun i => g (a + i)) 1). apply sumf_ext.
    intros i _. f_equal; lia.
  Qed.
  Lemma sumf_seq_mul (g : nat -> nat -> S) a b :
    sumf (fun k => g (k mod a) (k / a)) (seq 0 (a * b))
    = sumf (fun i => sumf (fun j => g i j) (seq 0 b)) (seq 0 a).
  Proof.
    destruct (Nat.eq_dec a 0) as [->|Na]; [reflexivity|].
    induction b as [|b IH].
    - rewrite Nat.mul_0_r. simpl. rewrite sumf_zero. auto.
    - replace (a * Datatypes.S b) with (a * b + a) by lia.
      rewrite seq_app, sumf_app, IH. rewrite (sumf_seq_shift _ (0 + a * b)).
      change (0 + a * b) with (a * b).
      transitivity (kadd (sumf (fun i => sumf (fun j => g i j) (seq 0 b)) (seq 0 a))
                         (sumf (fun i => g i b) (seq 0 a))).
      + f_equal. apply sumf_ext. intros i Hi. apply in_seq in Hi.
        rewrite (Nat.mul_comm a b), Nat.add_comm, Nat.mod_add, Nat.div_add by auto.
        rewrite Nat.mod_small, Nat.div_small by lia. auto.
      + rewrite <- sumf_add. apply sumf_ext. intros i _.
        replace (Datatypes.S b) with (b + 1) by lia. rewrite seq_app, sumf_app. simpl. ring.
  Qed.
  Lemma sumf_nth (h : nat -> S) vs :
    sumf (fun i => h (nth i vs 0)) (seq 0 (length vs)) = sumf h vs.
  Proof.
    induction vs as [|v r IH]; simpl; auto. f_equal.
    rewrite <- IH, sumf_seq_shift. apply sumf_ext. auto.
  Qed.

  (** the assignment of slice [k] *)
  Fixpoint decode (d : list (name * list nat)) (k : nat) (s : name -> nat) : name -> nat :=
    match d with
    | [] => s
    | (e, vs) :: r => decode r (k / length vs) (upd s e (nth (k mod length vs) vs 0))
    end.
  Definition dlen (d : list (name * list nat)) : nat := fold_right (fun p n => length (snd p) * n) 1 d.

  Lemma esum_decode d (f : (name -> nat) -> S) s :
    sumf (fun k => f (decode d k s)) (seq 0 (dlen d)) = esum d f s.
  Proof.
    revert s; induction d as [|[e vs] r IH]; intros s; simpl.
    - apply kadd_0_r.
    - rewrite (sumf_seq_mul (fun i j => f (decode r j (upd s e (nth i vs 0)))) (length vs) (dlen r)).
      rewrite <- (sumf_nth (fun v => esum r f (upd s e v)) vs).
      apply sumf_ext. intros i _. apply IH.
  Qed.

  Lemma decode_other d k s e : ~ In e (keys d) -> decode d k s e = s e.
  Proof.
    revert k s; induction d as [|[a vs] r IH]; simpl; intros k s N; auto.
    rewrite IH by tauto. apply upd_neq. intros ->; tauto.
  Qed.
  Lemma decode_range d k e vs s :
    NoDup (keys d) -> In (e, vs) d -> vs <> [] -> In (decode d k s e) vs.
  Proof.
    revert k s; induction d as [|[a ws] r IH]; simpl; intros k s ND; [tauto|].
    inversion ND; subst. intros [Eq|I] Ne.
    - inversion Eq; subst. rewrite decode_other by auto. rewrite upd_eq.
      apply nth_In. apply Nat.mod_upper_bound. destruct vs; simpl; congruence.
    - apply IH; auto.
  Qed.

  (** the dictionary entry of every edge of [d]; [stg] gives the stage of its cell *)
  Definition entries (stg : name -> nat) (d : list (name * list nat)) : list ((name * list nat) * cell) :=
    map (fun p => (p, (stg (fst p), fst p))) d.

  Lemma entries_length stg d : fix_length (entries stg d) = dlen d.
  Proof. induction d as [|[e vs] r IH]; simpl; auto. Qed.

  Lemma set_slice_frame f k (st : store S) :
    arr (set_slice f k st) = arr st /\ data (set_slice f k st) = data st /\ pre (set_slice f k st) = pre st.
  Proof.
    revert k st; induction f as [|[[e vs] c] r IH]; simpl; intros k st; auto.
    destruct (IH (k / length vs) (set_cell st c (nth (k mod length vs) vs 0))) as (-> & -> & ->). auto.
  Qed.
  Lemma set_slice_cells stg d k (st : store S) (s : name -> nat) :
    (forall e, fixc st (stg e, e) = s e) ->
    forall e, fixc (set_slice (entries stg d) k st) (stg e, e) = decode d k s e.
  Proof.
    revert k st s; induction d as [|[a vs] r IH]; simpl; intros k st s E; auto.
    apply IH. intros e. unfold set_cell, upd. cbn [fixc].
    destruct (eqb_spec e a) as [->|Ne];
      match goal with |- context [@eqb ?A ?i ?x ?y] => destruct (@eqb_spec A i x y) as [Q|Q] end; auto; congruence.
  Qed.

  Lemma digits_spec sub stg d k s e vs :
    NoDup (keys d) -> (forall a, In a (keys d) -> ~ In a sub) -> In (e, vs) d -> vs <> [] ->
    exists i, get e (digits sub (entries stg d) k) = Some i /\ i < length vs /\
              decode d k s e = nth i vs 0.
  Proof.
    revert k s; induction d as [|[a ws] r IH]; simpl; intros k s ND Hs; [tauto|].
    inversion ND; subst. intros I Ne.
    destruct (mem a sub) eqn:M; [exfalso; apply (Hs a); auto; apply mem_In; auto|]. simpl.
    destruct I as [Eq|I].
    - inversion Eq; subst. rewrite eqb_refl. exists (k mod length vs). split; auto.
      split; [apply Nat.mod_upper_bound; destruct vs; simpl; congruence|].
      rewrite decode_other by auto. apply upd_eq.
    - destruct (eqb_spec e a) as [->|].
      + exfalso. apply H1. apply in_map_iff. exists (a, vs); auto.
      + apply IH; auto.
  Qed.
End Radix.

Lemma mapM_map (A B C : Type) (f : B -> res C) (g : A -> B) (h : A -> C) l :
  (forall x, In x l -> f (g x) = Ok (h x)) -> mapM f (map g l) = Ok (map h l).
Proof.
  induction l as [|a r IH]; simpl; intros E; auto. rewrite E by auto. simpl.
  rewrite IH by auto. auto.
Qed.
Lemma mapM_ok (A C : Type) (f : A -> res C) (h : A -> C) l :
  (forall x, In x l -> f x = Ok (h x)) -> mapM f l = Ok (map h l).
Proof. intros E. rewrite <- (map_id l) at 1. apply mapM_map. auto. Qed.

(** ** sorting keeps the elements *)
Lemma sort_ins_perm lt x l r : sort_ins lt x l = Ok r -> Permutation (x :: l) r.
Proof.
  revert r; induction l as [|y q IH]; simpl; intros r E; [inversion E; auto|].
  destruct (lt x y) as [[]|]; simpl in E; try discriminate; [inversion E; auto|].
  destruct (sort_ins lt x q) as [w|]; simpl in E; inversion E; subst.
  rewrite perm_swap. constructor. auto.
Qed.
Lemma sort_by_perm lt l acc r : sort_by lt l acc = Ok r -> Permutation (l ++ acc) r.
Proof.
  revert acc r; induction l as [|x q IH]; simpl; intros acc r E; [inversion E; auto|].
  destruct (sort_ins lt x acc) as [w|] eqn:Ew; simpl in E; [|discriminate].
  apply IH in E. apply sort_ins_perm in Ew. rewrite <- E, <- Ew. apply Permutation_middle.
Qed.
Lemma py_sorted_perm l : Permutation l (py_sorted l).
Proof.
  unfold py_sorted. destruct (sort_by name_lt l []) eqn:E.
  - apply sort_by_perm in E. rewrite app_nil_r in E; auto.
  - destruct (sort_by _ l []) eqn:E' in |- *; auto.
    apply sort_by_perm in E'. rewrite app_nil_r in E'; auto.
Qed.

Section Exec.
  Context {S : scalar} {T : Type} `{PT : Payload T}.
  Add Ring KringX : (kring S).
  Notation net := (tn T).
  Implicit Types (x e : name).
  Variable ev : T -> res (nd S).

  Definition arr_of (d : node T) : nd S :=
    match n_val d with
    | Some t => match ev t with Ok a => a | Err _ => nd_zeros S [] end
    | None => nd_zeros S []
    end.

  Variable n : net.
  Variable split : list name.
  Hypothesis R : ready ev n.
  Hypothesis G : good_slices n split.

  Notation sz := (size n).
  Notation fd1 := (fd1_of n).
  Notation fd2 := (fd2_of n split).
  Notation dom := (fd1 ++ fd2).
  Notation work := (work n split).
  Notation dref1 := (dref1 n).
  Notation dref2 := (dref2 n split).

  Lemma data_at x d : In (x, d) (nodes n) ->
    nd_shape (arr_of d) = map sz (n_legs d) /\ forall e, In e (n_legs d) -> edim n e = Some (sz e).
  Proof.
    intros I. destruct (rd_data R _ _ I) as (t & a & E1 & E2 & E3 & E4). unfold arr_of. rewrite E1, E2. auto.
  Qed.

  Definition the_data : list (name * nd S) := map (fun p => (fst p, arr_of (snd p))) (nodes n).

  Lemma node_data_ok : node_data ev n = Ok the_data.
  Proof.
    unfold node_data, the_data. apply mapM_ok. intros [x d] I. simpl.
    destruct (rd_data R _ _ I) as (t & a & E1 & E2 & _). unfold arr_of. rewrite E1, E2. auto.
  Qed.
  Lemma the_data_keys : keys the_data = keys (nodes n).
  Proof. unfold the_data, keys. rewrite map_map. auto. Qed.
  Lemma the_data_get x d : In (x, d) (nodes n) -> get x the_data = Some (arr_of d).
  Proof.
    intros I. apply In_get.
    - rewrite the_data_keys. apply (wf_nodes (rd_wf R)).
    - apply in_map_iff. exists (x, d); auto.
  Qed.

  (** ** fixed edges *)
  Lemma fd1_In e vs : In (e, vs) fd1 <-> exists ed, In (e, ed) (edges n) /\ e_fix ed = Some vs.
  Proof.
    unfold fd1_of. rewrite in_flat_map. split.
    - intros [[a ed] [I J]]. simpl in J. destruct (e_fix ed) as [fx|] eqn:F; [|destruct J].
      destruct J as [J|[]]. inversion J; subst. eauto.
    - intros [ed [I F]]. exists (e, ed). split; auto. simpl. rewrite F. simpl; auto.
  Qed.
  Lemma fd1_keys : keys fd1 = filter (fixedb n) (keys (edges n)).
  Proof.
    unfold fd1_of. assert (Q : forall p, In p (edges n) -> fixedb n (fst p) = match e_fix (snd p) with Some _ => true | None => false end).
    { intros [e ed] I. apply fixedb_get. apply In_get; auto. apply (wf_edges (rd_wf R)). }
    revert Q. generalize (edges n). induction l as [|[e ed] r IH]; intros Q; simpl; auto.
    pose proof (Q (e, ed) (or_introl eq_refl)) as Qe. simpl in Qe. rewrite Qe.
    destruct (e_fix ed) as [fx|]; simpl.
    - f_equal. apply IH. intros; apply Q; simpl; auto.
    - apply IH. intros; apply Q; simpl; auto.
  Qed.
  Lemma fd1_mem e : mem e (keys fd1) = fixedb n e.
  Proof.
    rewrite fd1_keys. destruct (fixedb n e) eqn:F.
    - apply mem_In, filter_In. split; auto. apply fixedb_key; auto.
    - apply mem_false. rewrite filter_In. intros [_ Q]; congruence.
  Qed.
  Lemma fd2_keys : keys fd2 = filter (fun e => mem e split) (live n).
  Proof. unfold fd2_of, keys. rewrite map_map. simpl. apply map_id. Qed.
  Lemma fd2_In e vs : In (e, vs) fd2 <-> In e split /\ vs = seq 0 (sz e).
  Proof.
    unfold fd2_of. rewrite in_map_iff. split.
    - intros [a [Eq I]]. inversion Eq; subst. apply filter_In in I as [_ I]. apply mem_In in I. auto.
    - intros [I ->]. exists e. split; auto. apply filter_In. split; [|apply mem_In; auto].
      apply (live_In R). split; [apply (gs_unfixed G)|apply (gs_att G)]; auto.
  Qed.
  Lemma fd2_mem e : mem e (keys fd2) = mem e split.
  Proof.
    destruct (mem e split) eqn:M.
    - apply mem_In. apply mem_In in M. apply in_map_iff. exists (e, seq 0 (sz e)). split; auto. apply fd2_In; auto.
    - apply mem_false. apply mem_false in M. intros I. apply in_map_iff in I as [[a vs] [Eq I]].
      simpl in Eq; subst. apply fd2_In in I; tauto.
  Qed.
  Lemma live_NoDup : NoDup (live n).
  Proof. unfold live. apply filter_keys_NoDup, (wf_edges (rd_wf R)). Qed.
  Lemma dom_NoDup : NoDup (keys dom).
  Proof.
    rewrite keys_app, fd1_keys, fd2_keys. apply NoDup_app_iff. split; [|split].
    - apply NoDup_filter', (wf_edges (rd_wf R)).
    - apply NoDup_filter', live_NoDup.
    - intros e I J. apply filter_In in I as [_ I]. apply filter_In in J as [J _].
      apply (live_In R) in J. destruct J; congruence.
  Qed.
  Lemma dom_mem e : mem e (keys dom) = gone n split e.
  Proof. rewrite keys_app, mem_app, fd1_mem, fd2_mem. auto. Qed.

  Definition stg e : nat := if fixedb n e then 1 else 2.
  Lemma the_fix_entries : the_fix n split = entries stg dom.
  Proof.
    unfold the_fix, entries, fix_dict. rewrite map_app. f_equal; apply map_ext_in; intros [e vs] I; simpl.
    - unfold stg. rewrite <- fd1_mem. rewrite (proj2 (mem_In e (keys fd1))); auto.
      apply in_map_iff. exists (e, vs); auto.
    - unfold stg. rewrite (gs_unfixed G); auto. apply fd2_In in I; tauto.
  Qed.

  (** the value of a fixed edge *)
  Definition cells_ok (st : store S) : Prop := forall e v, In (e, [v]) fd1 -> fixc st (1, e) = v.
  Lemma fd1_single e vs : In (e, vs) fd1 -> exists v, vs = [v] /\ v < sz e.
  Proof.
    intros I. apply fd1_In in I as [ed [I F]]. pose proof (In_get _ _ _ (wf_edges (rd_wf R)) I) as Ge.
    destruct (rd_single R _ Ge F) as [v ->]. exists v; split; auto.
    destruct (wf_fix (rd_wf R) _ Ge F) as [d [D Fa]]. inversion Fa; subst.
    unfold size, edim. rewrite Ge, D. auto.
  Qed.

  (** ** state invariant of a compiled task *)
  Definition fixed1 (st : store S) : Prop :=
    forall x d, In (x, d) (nodes n) ->
      exists r, arr st (dref1 x) = Some r /\
                is_fixed sz (keys fd1) (fun e => decode dom 0 (@env0 name) e) (n_legs d) (arr_of d) r.
  (** the data given to the task: sorted like the nodes, and the array of node [x] under [x] *)
  Definition data_ok (d : list (name * nd S)) : Prop :=
    py_sorted (keys d) = py_sorted (keys (nodes n)) /\
    forall x nd, In (x, nd) (nodes n) -> get x d = Some (arr_of nd).
  Lemma the_data_ok : data_ok the_data.
  Proof. split; [rewrite the_data_keys; auto|apply the_data_get]. Qed.

  Record good (st : store S) : Prop := {
    gd_data : data_ok (data st);
    gd_cells : cells_ok st;
    gd_pre : pre st = true -> fixed1 st
  }.

  Lemma decode_fixed k s e v : In (e, [v]) fd1 -> decode dom k s e = v.
  Proof.
    intros I. assert (Q : In (decode dom k s e) [v]).
    { apply decode_range; [apply dom_NoDup|apply in_app_iff; auto|discriminate]. }
    destruct Q as [Q|[]]; auto.
  Qed.

  Lemma load_pairs_ok inp l (st : store S) :
    (forall x, In x l -> get x inp = Some (AIn x) /\ exists a, get x (data st) = Some a) ->
    NoDup l ->
    exists st', load_pairs inp l l st = Ok st' /\ fixc st' = fixc st /\ data st' = data st /\ pre st' = pre st /\
      (forall x, In x l -> arr st' (AIn x) = get x (data st)) /\
      (forall al, (forall x, In x l -> al <> AIn x) -> arr st' al = arr st al).
  Proof.
    revert st; induction l as [|x r IH]; intros st E ND.
    - exists st. simpl. split; auto. split; auto. split; auto. split; auto. split; auto. intros ? [].
    - inversion ND; subst. destruct (E x (or_introl eq_refl)) as [E1 [a E2]].
      cbn [load_pairs]. rewrite E1, E2.
      destruct (IH (set_arr st (AIn x) a)) as (st' & Q1 & Q2 & Q3 & Q4 & Q5 & Q6); auto.
      { intros y Iy. apply E; simpl; auto. }
      exists st'. split; auto. split; auto. split; auto. split; auto. split.
      + intros y [->|Iy]; [|apply Q5; auto].
        rewrite Q6.
        * unfold set_arr; cbn [arr]. rewrite eqb_refl. auto.
        * intros z Iz Eq. inversion Eq; subst; auto.
      + intros al Na. rewrite Q6 by (intros y Iy; apply Na; simpl; auto).
        unfold set_arr; cbn [arr]. destruct (eqb_spec al (AIn x)) as [->|]; auto.
        exfalso. apply (Na x); simpl; auto.
  Qed.

  Lemma inputs_get x : In x (keys (nodes n)) ->
    get x (map (fun x => (x, AIn x)) (keys (nodes n))) = Some (AIn x).
  Proof.
    intros I. apply In_get.
    - unfold keys at 1. rewrite map_map. simpl. rewrite map_id. apply (wf_nodes (rd_wf R)).
    - apply in_map_iff. eauto.
  Qed.
  Lemma inputs_keys (l : list name) : keys (map (fun x => (x, AIn x)) l) = l.
  Proof. unfold keys. rewrite map_map. apply map_id. Qed.

  Lemma load_data_ok path (st : store S) :
    good st ->
    exists st', load_data (the_task n split path) st = Ok st' /\ good st' /\ pre st' = false /\
      fixc st' = fixc st /\
      (forall x d, In (x, d) (nodes n) -> arr st' (AIn x) = Some (arr_of d)).
  Proof.
    intros [D C P]. unfold load_data. cbn [t_inputs the_task].
    rewrite inputs_keys, (proj1 D).
    set (l := py_sorted (keys (nodes n))).
    assert (Pl : Permutation (keys (nodes n)) l) by apply py_sorted_perm.
    destruct (@load_pairs_ok (map (fun x => (x, AIn x)) (keys (nodes n))) l st)
      as (st' & Q1 & Q2 & Q3 & Q4 & Q5 & Q6).
    - intros x I. apply (Permutation_in x (Permutation_sym Pl)) in I. split; [apply inputs_get; auto|].
      apply in_map_iff in I as [[y d] [<- I]]. exists (arr_of d). apply (proj2 D); auto.
    - eapply Permutation_NoDup; eauto. apply (wf_nodes (rd_wf R)).
    - rewrite Q1. cbn [bind]. eexists; split; [reflexivity|].
      split; [|split; [|split]]; auto.
      + constructor; simpl; [rewrite Q3; auto| |discriminate]. intros e v I. simpl. rewrite Q2. apply C; auto.
      + simpl. intros x d I. rewrite Q5.
        * apply (proj2 D); auto.
        * apply (Permutation_in x Pl), in_map_iff. exists (x, d); auto.
  Qed.

  Lemma dref1_stage x : dref1 x = AIn x \/ dref1 x = AFix 1 x.
  Proof. apply (template_fix_stage 1 (keys fd1) (nodes n) AIn x). Qed.

  Lemma preprocess_ok (st : store S) :
    good st -> (forall x d, In (x, d) (nodes n) -> arr st (AIn x) = Some (arr_of d)) ->
    exists st', run_cmds (cs1 n) (set_pre st true) = Ok st' /\ good st' /\ pre st' = true /\ fixc st' = fixc st.
  Proof.
    intros [D C P] A.
    destruct (@template_fix_run S T 1 sz (keys fd1) (nodes n) AIn (set_pre st true))
      as (st' & Q1 & Q2 & Q3 & Q4 & Q5 & Q6 & Q7).
    - apply (wf_nodes (rd_wf R)).
    - intros x _ y; discriminate.
    - intros x d e I Ie M. apply mem_In in M. apply in_map_iff in M as [[a vs] [Eq I']]. simpl in Eq; subst.
      destruct (fd1_single _ _ I') as [v [-> L]]. simpl. rewrite (C e v I'). auto.
    - intros x d I. exists (arr_of d). split; [apply A; auto|]. apply (data_at _ _ I).
    - exists st'. split; auto. split; [|split; [rewrite Q4; auto|rewrite Q2; auto]].
      assert (C' : cells_ok st') by (intros e v I; rewrite Q2; apply C; auto).
      constructor; auto; [rewrite Q3; auto|]. intros _ x d I.
      destruct (Q7 x d (arr_of d) I (A x d I)) as [r [E1 E2]]. exists r. split; auto.
      eapply is_fixed_ext; [|exact E2]. intros e Ie M.
      apply mem_In in M. apply in_map_iff in M as [[a vs] [Eq I']]. simpl in Eq; subst.
      destruct (fd1_single _ _ I') as [v [-> L]]. simpl. rewrite (C e v I').
      symmetry. apply decode_fixed; auto.
  Qed.

  (** ** the value of one slice *)
  Definition rest : list name := filter (fun e => negb (mem e split)) (live n).
  Definition rest_dom : list (name * list nat) := dom_of sz rest.
  Definition aterms : list (term S (A := name)) :=
    map (fun p => Term (n_legs (snd p)) (nd_at (arr_of (snd p)))) (nodes n).
  Definition slice_value (s : name -> nat) (o : list nat) : S :=
    esum rest_dom (fun s => kmul (kdelta (eqb (map s (sub_opens n split)) o)) (prodf (term_at s) aterms)) s.
  Definition sigma (k : nat) : name -> nat := decode dom k (@env0 name).

  Lemma rest_In e : In e rest <-> gone n split e = false /\ attachedb n e = true.
  Proof.
    unfold rest, gone. rewrite filter_In, (live_In R), negb_true_iff, orb_false_iff. tauto.
  Qed.
  Lemma gone_sigma k e : attachedb n e = true -> gone n split e = true -> sigma k e < sz e.
  Proof.
    intros A Ge. rewrite <- dom_mem in Ge. apply mem_In in Ge. rewrite keys_app, in_app_iff in Ge.
    destruct Ge as [I|I]; apply in_map_iff in I as [[a vs] [Eq I]]; simpl in Eq; subst.
    - destruct (fd1_single _ _ I) as [v [-> L]]. unfold sigma. rewrite (decode_fixed _ _ _ _ I). auto.
    - assert (I2 := I). apply fd2_In in I2 as [Is ->].
      assert (Q : In (sigma k e) (seq 0 (sz e))).
      { apply decode_range; [apply dom_NoDup|apply in_app_iff; auto|].
        pose proof (gs_dim G e Is). destruct (sz e); simpl; [lia|discriminate]. }
      apply in_seq in Q. lia.
  Qed.

  Definition fixed2 k (d : node T) (r : nd S) : Prop :=
    nd_shape r = map sz (rest_legs n split (n_legs d)) /\
    forall s, nd_at r (map s (rest_legs n split (n_legs d)))
              = nd_at (arr_of d) (map (fun e => if gone n split e then sigma k e else s e) (n_legs d)).

  Lemma is_fixed_compose k d r1 r2 :
    (forall e, In e (n_legs d) -> attachedb n e = true) ->
    is_fixed sz (keys fd1) (sigma 0) (n_legs d) (arr_of d) r1 ->
    is_fixed sz (keys fd2) (sigma k) (keep (keys fd1) (n_legs d)) r1 r2 -> fixed2 k d r2.
  Proof.
    intros At [S1 V1] [S2 V2].
    assert (Q : keep (keys fd2) (keep (keys fd1) (n_legs d)) = rest_legs n split (n_legs d)).
    { unfold keep, rest_legs. rewrite filter_filter. apply filter_ext. intros e.
      rewrite fd1_mem, fd2_mem. unfold gone. rewrite negb_orb. auto. }
    split; rewrite <- Q; auto. intros s. rewrite V2, V1. f_equal. apply map_ext. intros e.
    unfold pin, gone. rewrite fd1_mem, fd2_mem. destruct (fixedb n e) eqn:F; auto.
    simpl. rewrite <- fd1_mem in F. apply mem_In in F. apply in_map_iff in F as [[a vs] [Eq I]].
    simpl in Eq; subst. destruct (fd1_single _ _ I) as [v [-> _]]. unfold sigma.
    rewrite !(decode_fixed _ _ _ _ I). auto.
  Qed.

  Lemma node_att x d e : In (x, d) (nodes n) -> In e (n_legs d) -> attachedb n e = true.
  Proof.
    intros I Ie. apply (attached_In e (rd_wf R)). exists x, d. split; auto.
    apply In_get; auto. apply (wf_nodes (rd_wf R)).
  Qed.

  (** running the second block of 'f' commands for slice [k] *)
  Lemma cs2_ok k (st : store S) :
    good st -> pre st = true -> (forall e, In e split -> fixc st (2, e) = sigma k e) ->
    exists st', run_cmds (cs2 n split) st = Ok st' /\ good st' /\ pre st' = true /\
      forall x d, In (x, d) (nodes n) -> exists r, arr st' (dref2 x) = Some r /\ fixed2 k d r.
  Proof.
    intros Gd P C2. destruct (work_spec R G) as (W & _ & St & _ & _).
    pose proof (gd_pre Gd P) as F1.
    assert (Wn : forall x w, In (x, w) (nodes work) -> exists d, In (x, d) (nodes n) /\
               n_legs w = keep (keys fd1) (n_legs d)).
    { intros x w I. apply (In_get _ _ _ (wf_nodes W)) in I.
      destruct St as [_ Sg]. specialize (Sg x). rewrite I in Sg.
      destruct (get x (nodes n)) as [d|] eqn:Gd'; [|tauto]. destruct Sg as [Sl _].
      exists d. split; [apply get_In; auto|]. rewrite Sl. unfold keep. apply filter_ext.
      intros e. rewrite fd1_mem; auto. }
    assert (Nw : forall x d, In (x, d) (nodes n) -> exists w, In (x, w) (nodes work) /\
               n_legs w = keep (keys fd1) (n_legs d)).
    { intros x d I. destruct (@stripped_In _ _ n work x d (wf_nodes (rd_wf R)) St I) as (w & Gw & Lw & _).
      exists w. split; [apply get_In; auto|]. rewrite Lw. unfold keep. apply filter_ext.
      intros e. rewrite fd1_mem; auto. }
    assert (leg2 : forall (d : node T) e, In e (keep (keys fd1) (n_legs d)) -> In e (n_legs d) /\ fixedb n e = false).
    { intros d e I. apply filter_In in I as [I M]. rewrite fd1_mem in M. apply negb_true_iff in M. auto. }
    destruct (@template_fix_run S T 2 sz (keys fd2) (nodes work) dref1 st)
      as (st' & Q1 & Q2 & Q3 & Q4 & Q5 & Q6 & Q7).
    - apply (wf_nodes W).
    - intros x _ y. destruct (dref1_stage x) as [-> | ->]; discriminate.
    - intros x w e I Ie M. rewrite fd2_mem in M. apply mem_In in M. rewrite C2 by auto.
      destruct (Wn _ _ I) as (d & Id & Lw). rewrite Lw in Ie. apply leg2 in Ie as [Ie _].
      apply gone_sigma; [eapply node_att; eauto|]. unfold gone. rewrite (proj2 (mem_In e split) M). apply orb_true_r.
    - intros x w I. destruct (Wn _ _ I) as (d & Id & Lw). destruct (F1 _ _ Id) as (r & Er & [Sh _]).
      exists r. split; auto. rewrite Lw. auto.
    - exists st'. split; auto.
      assert (A1 : forall x, arr st' (dref1 x) = arr st (dref1 x)).
      { intros x. apply Q5. intros y. destruct (dref1_stage x) as [-> | ->]; discriminate. }
      split; [|split; [rewrite Q4; auto|]].
      + constructor; [rewrite Q3; apply (gd_data Gd)| |].
        * intros e v I. rewrite Q2. apply (gd_cells Gd); auto.
        * intros _ x d I. rewrite A1. apply F1; auto.
      + intros x d I. destruct (Nw _ _ I) as (w & Iw & Lw). destruct (F1 _ _ I) as (r1 & Er1 & Fx1).
        destruct (Q7 x w r1 Iw Er1) as (r2 & Er2 & Fx2). exists r2. split; auto.
        eapply is_fixed_compose; [intros e Ie; eapply node_att; eauto|exact Fx1|].
        rewrite <- Lw. eapply is_fixed_ext; [|exact Fx2]. intros e Ie M.
        rewrite fd2_mem in M. apply mem_In in M. simpl. apply C2; auto.
  Qed.

  (** contraction of the remaining legs *)
  Definition path_ok (path : option (list (nat * nat))) : Prop :=
    match path with None => True | Some p => p <> [] /\ valid_path (length (nodes n)) p end.

  Lemma sub_opens_In e : In e (sub_opens n split) <-> In e (opens n) /\ ~ In e split.
  Proof. unfold sub_opens. rewrite filter_In, negb_true_iff, mem_false. tauto. Qed.

  Lemma contract_slice k path (f : name * node T -> nd S) :
    path_ok path ->
    (forall p, In p (nodes n) -> fixed2 k (snd p) (f p)) ->
    let ops := map (fun p => (rest_legs n split (n_legs (snd p)), f p)) (nodes n) in
    exists r, (match path with
               | Some p => exec_path p ops (sub_opens n split)
               | None => np_einsum ops (sub_opens n split)
               end) = Ok r /\ nd_shape r = map sz (sub_opens n split) /\
              forall o, nd_at r o = slice_value (sigma k) o.
  Proof.
    intros PO F ops.
    assert (Fi : Forall (fits sz) ops).
    { apply Forall_forall. intros q I. apply in_map_iff in I as [p [<- I]]. apply (F p I). }
    assert (ND : NoDup (sub_opens n split)) by apply NoDup_filter', (rd_opens R).
    assert (LI : forall e, In e (opers_labels ops) <-> In e rest).
    { intros e. rewrite opers_labels_In, rest_In. split.
      - intros [q [I Ie]]. apply in_map_iff in I as [[x d] [<- I]]. simpl in Ie.
        apply filter_In in Ie as [Ie Gn]. apply negb_true_iff in Gn. split; auto. eapply node_att; eauto.
      - intros [Gn A]. apply (attached_In e (rd_wf R)) in A as (x & d & Gd & Ie).
        apply get_In in Gd. exists (rest_legs n split (n_legs d), f (x, d)). split.
        + apply in_map_iff. exists (x, d). auto.
        + simpl. apply filter_In. split; auto. apply negb_true_iff; auto. }
    assert (Inc : incl (sub_opens n split) (opers_labels ops)).
    { intros e I. apply LI, rest_In. apply sub_opens_In in I as [I Ns]. destruct (rd_open R e I) as [At Fe].
      split; auto. unfold gone. rewrite Fe. simpl. apply mem_false; auto. }
    assert (V : forall o, einsum_value sz ops (sub_opens n split) o = slice_value (sigma k) o).
    { intros o. unfold einsum_value, net_value, slice_value, rest_dom.
      assert (Pm : Permutation (dedup (opers_labels ops)) rest).
      { apply NoDup_same_perm; [apply dedup_NoDup|apply NoDup_filter', live_NoDup|].
        intros e. rewrite dedup_In. apply LI. }
      rewrite (@esum_perm S name _ _ (dom_of sz rest)).
      2:{ apply dom_of_perm; auto. }
      2:{ rewrite keys_dom_of. apply dedup_NoDup. }
      2:{ apply summand_exten. }
      rewrite (@esum_start_dep S name _ (dom_of sz rest) (sub_opens n split ++ labels (map oper_term ops)) _ _ (sigma k)).
      2:{ apply summand_depends. }
      2:{ intros e I N. exfalso. apply N. rewrite keys_dom_of. apply LI.
          rewrite labels_opers in I. apply in_app_iff in I as [I|I]; auto. }
      apply esum_ext.
      { rewrite keys_dom_of. apply NoDup_filter', live_NoDup. }
      intros s [_ Rs]. f_equal. unfold ops, aterms. rewrite map_map, !prodf_map.
      apply prodf_ext. intros p I. unfold term_at. simpl.
      destruct (F p I) as [_ Fv]. rewrite Fv. f_equal. apply map_ext_in. intros e Ie.
      destruct (gone n split e) eqn:Gn; auto. symmetry. apply Rs. rewrite keys_dom_of.
      rewrite rest_In. intros [Q _]; congruence. }
    destruct path as [p|].
    - destruct PO as [NE Vp].
      destruct (@exec_path_correct S name _ sz p ops (sub_opens n split)) as (r & E1 & E2 & E3); auto.
      + unfold ops. rewrite map_length. auto.
      + exists r. split; auto. split; auto. intros o. rewrite E3. apply V.
    - destruct (@np_einsum_fits S name _ sz ops (sub_opens n split)) as (r & E1 & E2 & E3); auto.
      exists r. split; auto. split; auto. intros o. rewrite E3. apply V.
  Qed.

  (** ** one subtask *)
  Lemma run_cmds_app l m (st : store S) : run_cmds (l ++ m) st = do st <- run_cmds l st; run_cmds m st.
  Proof.
    revert st; induction l as [|c r IH]; simpl; intros st; auto.
    destruct (run_cmd c st); simpl; auto.
  Qed.

  (** a subtask for slice [k] has been created in store [st] *)
  Record created (path : option (list (nat * nat))) (k : nat) (t : task) (st : store S) : Prop := {
    cr_good : good st;
    cr_pre : pre st = true;
    cr_cells : forall e, In e split -> fixc st (2, e) = sigma k e;
    cr_cmds : t_cmds t = skipn (length (cs1 n)) (t_cmds (the_task n split path));
    cr_out : t_out t = AOut
  }.

  Lemma getitem_ok path k (st : store S) :
    good st -> exists t st', getitem (the_task n split path) k st = Ok (t, st') /\ created path k t st'.
  Proof.
    intros Gd. unfold getitem.
    assert (Q : exists st1, (if pre st then Ok st
              else do st <- load_data (the_task n split path) st;
                   run_cmds (firstn (t_cnt (the_task n split path)) (t_cmds (the_task n split path))) (set_pre st true))
              = Ok st1 /\ good st1 /\ pre st1 = true).
    { destruct (pre st) eqn:P; [exists st; auto|].
      destruct (load_data_ok path Gd) as (st1 & E1 & G1 & P1 & _ & A1). rewrite E1. cbn [bind].
      destruct (preprocess_ok G1 A1) as (st2 & E2 & G2 & P2 & _). exists st2. split; auto.
      cbn [t_cnt t_cmds the_task]. rewrite firstn_app, Nat.sub_diag. simpl firstn at 2.
      rewrite app_nil_r, firstn_all. auto. }
    destruct Q as (st1 & -> & G1 & P1). cbn [bind].
    eexists _, _. split; [reflexivity|]. cbn [t_fix the_task]. rewrite the_fix_entries.
    destruct (set_slice_frame (entries stg dom) k st1) as (A & D & P).
    assert (Ce : forall e, mem e (keys dom) = true ->
       fixc (set_slice (entries stg dom) k st1) (stg e, e) = sigma k e).
    { intros e M. rewrite (set_slice_cells stg dom k st1 (fun e => fixc st1 (stg e, e)) (fun e => eq_refl)).
      apply mem_In in M. apply in_map_iff in M as [[a vs] [Eq I]]. simpl in Eq; subst.
      clear - I R G. unfold sigma.
      pose proof dom_NoDup as ND. revert ND I. generalize dom. intros d. generalize k.
      generalize (fun e => fixc st1 (stg e, e)). generalize (@env0 name).
      induction d as [|[a ws] r IH]; simpl; [tauto|]. intros s1 s2 k' ND [Eq|I].
      - inversion Eq; subst. inversion ND; subst. rewrite !decode_other by auto. rewrite !upd_eq. auto.
      - inversion ND; subst. apply IH; auto. }
    constructor; auto.
    - constructor.
      + rewrite D. apply (gd_data G1).
      + intros e v I. assert (F : fixedb n e = true).
        { rewrite <- fd1_mem. apply mem_In, in_map_iff. exists (e, [v]); auto. }
        specialize (Ce e). assert (Se : stg e = 1) by (unfold stg; rewrite F; auto). rewrite Se in Ce. rewrite Ce.
        * apply decode_fixed; auto.
        * rewrite dom_mem. unfold gone. rewrite F; auto.
      + intros _ x d I. rewrite A. apply (gd_pre G1 P1); auto.
    - congruence.
    - intros e I. specialize (Ce e).
      assert (Se : stg e = 2) by (unfold stg; rewrite (gs_unfixed G e I); auto). rewrite Se in Ce. apply Ce.
      rewrite dom_mem. unfold gone. rewrite (proj2 (mem_In e split) I). apply orb_true_r.
  Qed.

  Lemma exec_ok path k t (st : store S) :
    path_ok path -> created path k t st ->
    exists r st', exec t st = Ok (r, st') /\ good st' /\ pre st' = true /\
      nd_shape r = map sz (sub_opens n split) /\ forall o, nd_at r o = slice_value (sigma k) o.
  Proof.
    intros PO [Gd P C2 Cc Co]. unfold exec. rewrite Cc, Co. cbn [t_cmds the_task].
    rewrite skipn_app, Nat.sub_diag, skipn_all. simpl skipn. rewrite app_nil_l.
    rewrite run_cmds_app.
    destruct (cs2_ok k Gd P C2) as (st1 & E1 & G1 & P1 & A1). rewrite E1. cbn [bind run_cmds run_cmd].
    set (f := fun p : name * node T => match arr st1 (dref2 (fst p)) with Some r => r | None => nd_zeros S [] end).
    assert (Ff : forall p, In p (nodes n) -> arr st1 (dref2 (fst p)) = Some (f p) /\ fixed2 k (snd p) (f p)).
    { intros [x d] I. destruct (A1 x d I) as (r & Er & Fr). unfold f; simpl. rewrite Er. auto. }
    assert (Rd : mapM (read st1) (map dref2 (keys (nodes n))) = Ok (map f (nodes n))).
    { unfold keys. rewrite map_map. apply mapM_map. intros p I. unfold read.
      destruct (Ff p I) as [-> _]; auto. }
    rewrite Rd. cbn [bind].
    replace (combine (map (fun p => rest_legs n split (n_legs (snd p))) (nodes n)) (map f (nodes n)))
      with (map (fun p => (rest_legs n split (n_legs (snd p)), f p)) (nodes n)).
    2:{ clear. induction (nodes n) as [|p r IH]; simpl; auto. f_equal; auto. }
    destruct (@contract_slice k path f PO (fun p I => proj2 (Ff p I))) as (r & Er & Sr & Vr).
    rewrite Er. cbn [bind]. unfold read, set_arr. cbn [arr]. rewrite eqb_refl. cbn [bind].
    eexists _, _. split; [reflexivity|]. split; [|split; [|split]]; auto.
    destruct G1 as [D1 Ce1 Pr1]. constructor; simpl; auto.
    intros Pt x d I. destruct (Pr1 Pt x d I) as (r1 & Er1 & Fr1). exists r1. split; auto. simpl.
    rewrite <- Er1. destruct (dref1_stage x) as [-> | ->]; reflexivity.
  Qed.

  (** creating and executing the subtasks of a list of indices, in any order and with repetitions *)
  Lemma exec_slices_ok path l (st : store S) :
    path_ok path -> good st ->
    exists rs st', exec_slices (the_task n split path) l st = Ok (rs, st') /\ good st' /\
      map fst rs = l /\
      (forall k r, In (k, r) rs -> nd_shape r = map sz (sub_opens n split) /\
                                   forall o, nd_at r o = slice_value (sigma k) o).
  Proof.
    intros PO. revert st; induction l as [|k r IH]; intros st Gd.
    - exists [], st. split; auto. split; auto. split; auto. intros ? ? [].
    - cbn [exec_slices]. destruct (getitem_ok path k Gd) as (t & st1 & E1 & C1). rewrite E1. cbn [bind fst snd].
      destruct (exec_ok PO C1) as (a & st2 & E2 & G2 & _ & S2 & V2). rewrite E2. cbn [bind fst snd].
      destruct (IH st2 G2) as (rs & st3 & E3 & G3 & M3 & V3). rewrite E3. cbn [bind fst snd].
      exists ((k, a) :: rs), st3. split; auto. split; auto. split; [simpl; congruence|].
      intros k' r' [Eq|I]; [inversion Eq; subst; auto|apply V3; auto].
  Qed.
End Exec.
