(** Correctness of pairwise einsum evaluation along a path. *)
From Verif Require Import Base Scalar NetSpec Sums NetAlg ModelArray.
Set Implicit Arguments.
Open Scope K_scope.

Lemma NoDup_same_perm {A} (l m : list A) :
  NoDup l -> NoDup m -> (forall x, In x l <-> In x m) -> Permutation l m.
Proof. intros; apply NoDup_Permutation; auto. Qed.

Section Einsum.
  Context {S : scalar} {A : Type} `{EA : Eqb A}.
  Add Ring KringE : (kring S).
  Notation oper := (oper S (A := A)).
  Implicit Types (ops : list oper) (sz : A -> nat).

  (** the operand's shape is given by the label sizes *)
  Definition fits sz (p : oper) : Prop := nd_shape (snd p) = map sz (fst p).

  Definition opers_labels ops : list A := concat (map fst ops).

  Lemma labels_opers ops : labels (map oper_term ops) = opers_labels ops.
  Proof. unfold labels, opers_labels. rewrite map_map. auto. Qed.

  Lemma opers_labels_In a ops : In a (opers_labels ops) <-> exists p, In p ops /\ In a (fst p).
  Proof.
    unfold opers_labels. rewrite in_concat. split.
    - intros [l [Il Ia]]. apply in_map_iff in Il as [p [<- Ip]]; eauto.
    - intros [p [Ip Ia]]. exists (fst p); split; auto. apply in_map_iff; eauto.
  Qed.

  Lemma keys_combine {X} (l : list A) (m : list X) : length l = length m -> keys (combine l m) = l.
  Proof.
    revert m; induction l as [|a r IH]; intros [|x q] L; simpl in *; try discriminate; auto.
    unfold keys in *; simpl; f_equal; auto.
  Qed.

  Lemma keys_sizes ops : ranks_ok ops = true -> keys (sizes ops) = opers_labels ops.
  Proof.
    unfold ranks_ok, sizes, opers_labels. induction ops as [|[l d] r IH]; simpl; intros R; auto.
    apply andb_true_iff in R as [R1 R2]. apply Nat.eqb_eq in R1. simpl in R1.
    unfold keys in *. rewrite map_app. f_equal; auto. apply keys_combine; auto.
  Qed.

  Lemma get_combine_map sz (l : list A) a v :
    In (a, v) (combine l (map sz l)) -> v = sz a.
  Proof.
    induction l as [|b r IH]; simpl; [tauto|]. intros [E|I]; auto. congruence.
  Qed.

  Lemma sizes_In sz ops a v : Forall (fits sz) ops -> In (a, v) (sizes ops) -> v = sz a.
  Proof.
    unfold sizes. intros F I. apply in_concat in I as [l [Il I]].
    apply in_map_iff in Il as [p [<- Ip]]. rewrite Forall_forall in F. rewrite (F _ Ip) in I.
    eapply get_combine_map; eauto.
  Qed.
  Lemma fits_ranks sz ops : Forall (fits sz) ops -> ranks_ok ops = true.
  Proof.
    intros F. apply forallb_forall. intros p Ip. rewrite Forall_forall in F.
    rewrite (F _ Ip), map_length. apply Nat.eqb_refl.
  Qed.
  Lemma fits_size_of sz ops a :
    Forall (fits sz) ops -> In a (opers_labels ops) -> size_of (sizes ops) a = sz a.
  Proof.
    intros F I. unfold size_of. rewrite <- keys_sizes in I by (eapply fits_ranks; eauto).
    apply key_get in I as [v E]. rewrite E. eapply sizes_In; eauto. apply get_In; auto.
  Qed.
  Lemma fits_consistent sz ops : Forall (fits sz) ops -> consistent (sizes ops) = true.
  Proof.
    intros F. apply forallb_forall. intros [a v] I. simpl.
    rewrite (fits_size_of (sz:=sz) a F); [|rewrite <- keys_sizes by (eapply fits_ranks; eauto);
      apply in_map_iff; exists (a, v); auto].
    rewrite (sizes_In _ _ F I). apply Nat.eqb_refl.
  Qed.

  Lemma dom_of_ext sz sz' (l : list A) :
    (forall a, In a l -> sz a = sz' a) -> dom_of sz l = dom_of sz' l.
  Proof. intros E. unfold dom_of. apply map_ext_in. intros a Ia; rewrite E; auto. Qed.
  Lemma keys_dom_of sz (l : list A) : keys (dom_of sz l) = l.
  Proof. unfold keys, dom_of. rewrite map_map; simpl. apply map_id. Qed.
  Lemma dom_of_In sz (l : list A) a vs : In (a, vs) (dom_of sz l) <-> In a l /\ vs = seq 0 (sz a).
  Proof.
    unfold dom_of. rewrite in_map_iff. split.
    - intros [x [E I]]. inversion E; subst; auto.
    - intros [I ->]; eauto.
  Qed.
  Lemma dom_of_app sz (l m : list A) : dom_of sz (l ++ m) = dom_of sz l ++ dom_of sz m.
  Proof. apply map_app. Qed.
  Lemma dom_of_perm sz (l m : list A) : Permutation l m -> Permutation (dom_of sz l) (dom_of sz m).
  Proof. apply Permutation_map. Qed.

  (** the specification of einsum for operands that fit *)
  Definition einsum_value sz ops (rhs : list A) (o : list nat) : S :=
    net_value (dom_of sz (dedup (opers_labels ops))) (map oper_term ops) rhs o.

  Lemma np_einsum_fits sz ops rhs :
    Forall (fits sz) ops -> NoDup rhs -> incl rhs (opers_labels ops) ->
    exists r, np_einsum ops rhs = Ok r /\ nd_shape r = map sz rhs /\
              forall o, nd_at r o = einsum_value sz ops rhs o.
  Proof.
    intros F ND I. unfold np_einsum.
    pose proof (fits_ranks F) as R. rewrite R, (fits_consistent F).
    rewrite (proj2 (nodupb_NoDup rhs) ND). rewrite keys_sizes by auto.
    rewrite (proj2 (forallb_forall _ rhs)).
    2:{ intros a Ia. apply mem_In, I; auto. }
    simpl. eexists; split; [reflexivity|]; split; simpl.
    - apply map_ext_in. intros a Ia. apply fits_size_of; auto.
    - intros o. unfold einsum_value. rewrite (@dom_of_ext _ sz); auto.
      intros a Ia. apply fits_size_of; auto. apply dedup_In; auto.
  Qed.

  Lemma combine_map_fits (l : list A) (sh : list nat) (z : list (A * nat)) :
    length l = length sh -> (forall p, In p (combine l sh) -> size_of z (fst p) = snd p) ->
    sh = map (size_of z) l.
  Proof.
    revert sh; induction l as [|a r IH]; intros [|n q] L E; simpl in *; try discriminate; auto.
    f_equal; [symmetry; apply (E (a, n)); auto|apply IH; auto].
  Qed.

  Lemma np_einsum_inv ops rhs r :
    np_einsum ops rhs = Ok r ->
    Forall (fits (size_of (sizes ops))) ops /\ NoDup rhs /\ incl rhs (opers_labels ops).
  Proof.
    unfold np_einsum. destruct (ranks_ok ops) eqn:R; simpl; [|discriminate].
    destruct (consistent (sizes ops)) eqn:C; simpl; [|discriminate].
    destruct (nodupb rhs) eqn:N; simpl; [|discriminate].
    destruct (forallb _ rhs) eqn:F; simpl; [|discriminate]. intros _.
    rewrite keys_sizes in F by auto. repeat split.
    - apply Forall_forall. intros p Ip. unfold fits. apply combine_map_fits.
      + unfold ranks_ok in R. rewrite forallb_forall in R. apply Nat.eqb_eq, R; auto.
      + intros q Iq. unfold consistent in C. rewrite forallb_forall in C.
        apply Nat.eqb_eq, C. unfold sizes. apply in_concat. eexists; split; [|exact Iq].
        apply in_map_iff; eauto.
    - apply nodupb_NoDup; auto.
    - intros a Ia. rewrite forallb_forall in F. apply mem_In, F; auto.
  Qed.

  (** ** one pairwise step *)

  Lemma opers_labels_app ops ops' : opers_labels (ops ++ ops') = opers_labels ops ++ opers_labels ops'.
  Proof. unfold opers_labels. rewrite map_app, concat_app; auto. Qed.

  Lemma opers_labels_perm ops ops' a :
    Permutation ops ops' -> In a (opers_labels ops) <-> In a (opers_labels ops').
  Proof.
    intros P. rewrite !opers_labels_In. split; intros [p [Ip Ia]]; exists p; split; auto.
    - eapply Permutation_in; eauto.
    - eapply Permutation_in; [symmetry|]; eauto.
  Qed.

  Lemma einsum_value_perm sz ops ops' rhs o :
    Permutation ops ops' -> einsum_value sz ops rhs o = einsum_value sz ops' rhs o.
  Proof.
    intros P. unfold einsum_value.
    rewrite (net_value_terms_perm _ _ _ (Permutation_map oper_term P)).
    apply net_value_dom_perm.
    - apply dom_of_perm. apply NoDup_same_perm; try apply dedup_NoDup.
      intros x. rewrite !dedup_In. apply opers_labels_perm; auto.
    - rewrite keys_dom_of. apply dedup_NoDup.
  Qed.

  Lemma contract_opers sz (g rest : list oper) (kept rhs : list A) (d : nd S) o :
    NoDup kept ->
    (forall a, In a kept <-> In a (opers_labels g) /\ (In a rhs \/ In a (opers_labels rest))) ->
    incl rhs (opers_labels (g ++ rest)) ->
    (forall o, nd_at d o = einsum_value sz g kept o) ->
    einsum_value sz (g ++ rest) rhs o = einsum_value sz (rest ++ [(kept, d)]) rhs o.
  Proof.
    intros NDk Hk Hr Hd.
    set (priv := filter (fun a => negb (mem a kept)) (dedup (opers_labels g))).
    set (rem := dedup (opers_labels (rest ++ [(kept, d)]))).
    assert (NDp : NoDup priv) by (apply NoDup_filter', dedup_NoDup).
    assert (Hp : forall a, In a priv <-> In a (opers_labels g) /\ ~ In a kept).
    { intros a. unfold priv. rewrite filter_In, dedup_In, negb_true_iff, mem_false. tauto. }
    assert (Hm : forall a, In a rem <-> In a (opers_labels rest) \/ In a kept).
    { intros a. unfold rem. rewrite dedup_In, opers_labels_app, in_app_iff.
      unfold opers_labels at 2; simpl. rewrite app_nil_r. tauto. }
    rewrite (@einsum_value_perm sz (rest ++ [(kept, d)]) ((kept, d) :: rest)).
    2:{ symmetry. apply Permutation_cons_append. }
    unfold einsum_value. rewrite !map_app.
    rewrite (@contract_group S A _ _ (dom_of sz priv) (dom_of sz rem) (map oper_term g)
               (map oper_term rest) rhs o (oper_term (kept, d))).
    - rewrite map_cons. apply net_value_dom_perm.
      + apply dom_of_perm. apply NoDup_same_perm; try apply dedup_NoDup.
        intros x. rewrite dedup_In. rewrite Hm. unfold opers_labels; simpl.
        rewrite in_app_iff. tauto.
      + rewrite keys_dom_of. apply dedup_NoDup.
    - rewrite <- dom_of_app. apply dom_of_perm. apply NoDup_same_perm.
      + apply dedup_NoDup.
      + apply NoDup_app_iff; repeat split; auto; [apply dedup_NoDup|].
        intros a Ia Im. apply Hp in Ia as [Ig Nk]. apply Hm in Im as [Im|Im]; auto.
        apply Nk, Hk; auto.
      + intros a. rewrite dedup_In, opers_labels_app, !in_app_iff, Hp, Hm, Hk.
        destruct (mem_spec a kept) as [Y|N].
        * rewrite Hk in Y. tauto.
        * rewrite Hk in N. destruct (mem_spec a (opers_labels g)); tauto.
    - rewrite keys_dom_of. apply dedup_NoDup.
    - rewrite keys_dom_of. intros a Ia. apply Hp in Ia as [Ig Nk]. rewrite labels_opers.
      split; intros Q; apply Nk, Hk; auto.
    - intros s Hs. unfold term_at; simpl. rewrite Hd. unfold einsum_value.
      assert (P : Permutation (dom_of sz (dedup (opers_labels g))) (dom_of sz kept ++ dom_of sz priv)).
      { rewrite <- dom_of_app. apply dom_of_perm. apply NoDup_same_perm.
        - apply dedup_NoDup.
        - apply NoDup_app_iff; repeat split; auto. intros a Ia Ip. apply Hp in Ip; tauto.
        - intros a. rewrite dedup_In, in_app_iff, Hp.
          destruct (mem_spec a kept) as [Y|N]; [|tauto]. pose proof (proj1 (Hk a) Y). tauto. }
      rewrite (net_value_dom_perm _ _ _ P) by (rewrite keys_dom_of; apply dedup_NoDup).
      rewrite <- (keys_dom_of sz kept) at 2 3.
      apply group_value.
      + apply (Permutation_NoDup (Permutation_map fst P)).
        change (NoDup (keys (dom_of sz (dedup (opers_labels g))))).
        rewrite keys_dom_of. apply dedup_NoDup.
      + intros a ws Ia. apply dom_of_In in Ia as [_ ->]. apply seq_NoDup.
      + rewrite labels_opers. intros a Ia.
        rewrite <- dom_of_app, keys_dom_of, in_app_iff, Hp.
        destruct (mem_spec a kept); tauto.
      + intros a ws Ia. apply dom_of_In in Ia as [Ik ->]. apply (Hs a).
        apply dom_of_In; split; auto. apply Hm; auto.
  Qed.

  Lemma nth_error_del {X} i (l : list X) x :
    nth_error l i = Some x -> Permutation l (x :: del_nth i l).
  Proof.
    intros E. unfold del_nth. rewrite <- (firstn_skipn i l) at 1.
    assert (Q : skipn i l = x :: skipn (Datatypes.S i) l).
    { clear -E. revert i E; induction l as [|y r IH]; intros [|i] E; simpl in *; try discriminate.
      - congruence.
      - rewrite (IH i E). destruct r; auto. }
    rewrite Q. symmetry. apply Permutation_middle.
  Qed.
  Lemma nth_error_del_lt {X} i j (l : list X) :
    (i < j)%nat -> nth_error (del_nth j l) i = nth_error l i.
  Proof.
    unfold del_nth. intros L. revert i j L; induction l as [|y r IH]; intros i j L.
    - destruct j, i; auto.
    - destruct j; [lia|]. destruct i; simpl; auto. apply IH; lia.
  Qed.
  Lemma pop2_perm i j ops a b others :
    pop2 i j ops = Some (a, b, others) -> Permutation ops (a :: b :: others).
  Proof.
    unfold pop2. destruct (Nat.eqb_spec i j) as [|N]; [discriminate|].
    destruct (nth_error ops i) as [x|] eqn:Ei; [|discriminate].
    destruct (nth_error ops j) as [y|] eqn:Ej; [|discriminate].
    intros E; inversion E; subst; clear E.
    destruct (Nat.lt_ge_cases i j) as [L|G].
    - rewrite Nat.max_r, Nat.min_l by lia.
      eapply perm_trans; [apply (nth_error_del _ _ Ej)|].
      eapply perm_trans; [apply perm_skip, (nth_error_del i (del_nth j ops) (x := a))|apply perm_swap].
      rewrite nth_error_del_lt; eauto.
    - rewrite Nat.max_l, Nat.min_r by lia.
      eapply perm_trans; [apply (nth_error_del _ _ Ei)|]. apply perm_skip.
      apply nth_error_del. rewrite nth_error_del_lt by lia; auto.
  Qed.

  (** a path is valid for [n] operands when every step names two distinct
      existing operands and one operand remains at the end *)
  Fixpoint valid_path (n : nat) (path : list (nat * nat)) : Prop :=
    match path with
    | [] => n = 1%nat
    | (i, j) :: r => i <> j /\ (i < n)%nat /\ (j < n)%nat /\ valid_path (n - 1) r
    end.

  Lemma pop2_some i j ops :
    i <> j -> (i < length ops)%nat -> (j < length ops)%nat ->
    exists a b others, pop2 i j ops = Some (a, b, others) /\
                       length ops = Datatypes.S (Datatypes.S (length others)).
  Proof.
    intros N Li Lj.
    destruct (pop2 i j ops) as [[[a b] others]|] eqn:E.
    - exists a, b, others; split; auto. apply pop2_perm in E.
      apply Permutation_length in E; auto.
    - exfalso. unfold pop2 in E. destruct (Nat.eqb_spec i j); [congruence|].
      destruct (nth_error ops i) eqn:E1; [|apply nth_error_None in E1; lia].
      destruct (nth_error ops j) eqn:E2; [discriminate|apply nth_error_None in E2; lia].
  Qed.

  Lemma kept_labels_NoDup (a b : oper) rest rhs : NoDup (kept_labels a b rest rhs).
  Proof. apply NoDup_filter', dedup_NoDup. Qed.
  Lemma kept_labels_In (a b : oper) rest rhs x :
    In x (kept_labels a b rest rhs) <->
    In x (opers_labels [a; b]) /\ (In x rhs \/ In x (opers_labels rest)).
  Proof.
    unfold kept_labels. rewrite filter_In, dedup_In, orb_true_iff, mem_In, existsb_exists.
    unfold opers_labels at 1; simpl. rewrite app_nil_r.
    rewrite opers_labels_In. split.
    - intros [I [Hr|[p [Ip Hx]]]]; split; auto. right. exists p; split; auto. apply mem_In; auto.
    - intros [I [Hr|[p [Ip Hx]]]]; split; auto. right. exists p; split; auto. apply mem_In; auto.
  Qed.

  (** ** evaluation along a valid path = the einsum *)
  Theorem exec_path_correct sz path ops rhs :
    path <> [] ->
    Forall (fits sz) ops -> NoDup rhs -> incl rhs (opers_labels ops) ->
    valid_path (length ops) path ->
    exists r, exec_path path ops rhs = Ok r /\ nd_shape r = map sz rhs /\
              forall o, nd_at r o = einsum_value sz ops rhs o.
  Proof.
    revert ops. induction path as [|[i j] rest IH]; intros ops NE F ND I V; [congruence|].
    cbn [exec_path]. destruct V as (N & Li & Lj & V).
    destruct (pop2_some ops N Li Lj) as (a & b & others & E & Len). rewrite E.
    pose proof (pop2_perm _ _ _ E) as P.
    assert (F' : Forall (fits sz) (a :: b :: others)).
    { eapply Permutation_Forall; eauto. }
    inversion F' as [|? ? Fa F1]; subst. inversion F1 as [|? ? Fb Fo]; subst.
    assert (I' : incl rhs (opers_labels ([a; b] ++ others))).
    { intros x Ix. apply I in Ix. rewrite (opers_labels_perm x P) in Ix. exact Ix. }
    destruct rest as [|st rest].
    - (* last step *)
      simpl in V. assert (others = []) by (destruct others; simpl in *; auto; lia). subst others.
      simpl in I'.
      destruct (@np_einsum_fits sz [a; b] rhs) as (r & Er & Sr & Vr); auto.
      rewrite Er. cbn [bind app exec_path]. exists r; repeat split; auto.
      intros o. rewrite Vr. symmetry. apply einsum_value_perm; auto.
    - set (kept := kept_labels a b others rhs).
      destruct (@np_einsum_fits sz [a; b] kept) as (d & Ed & Sd & Vd).
      + auto.
      + apply kept_labels_NoDup.
      + intros x Ix. apply kept_labels_In in Ix; tauto.
      + rewrite Ed. cbn [bind].
        destruct (IH (others ++ [(kept, d)])) as (r & Er & Sr & Vr); auto.
        * congruence.
        * apply Forall_app; split; auto.
        * intros x Ix. pose proof (I' x Ix) as Q. rewrite opers_labels_app in *.
          rewrite in_app_iff in *. destruct Q as [Q|Q]; auto.
          right. unfold opers_labels; simpl. rewrite app_nil_r. apply kept_labels_In; auto.
        * rewrite app_length; simpl. replace (length others + 1)%nat with (length ops - 1)%nat by lia.
          auto.
        * exists r; repeat split; auto. intros o. rewrite Vr.
          rewrite <- (@contract_opers sz [a; b] others kept rhs d); auto.
          -- symmetry. apply einsum_value_perm; auto.
          -- apply kept_labels_NoDup.
          -- intros x. apply kept_labels_In.
  Qed.
End Einsum.
