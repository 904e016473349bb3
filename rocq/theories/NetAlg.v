(** Algebra of network values: permutation, relabelling, contraction of a group
    of tensors, pinning of labels. *)
From Verif Require Import Base Scalar NetSpec Sums.
Set Implicit Arguments.
Open Scope K_scope.

Section Alg.
  Context {S : scalar}.
  Add Ring KringA : (kring S).
  Context {A : Type} `{EA : Eqb A}.
  Notation env := (env (A := A)).
  Notation term := (term S (A := A)).
  Notation dom := (list (A * list nat)).
  Implicit Types (s : env) (f g : env -> S) (d : dom) (t : term) (ts : list term).

  (** ** labels used *)
  Definition labels ts : list A := concat (map (fun t => legs t) ts).

  Lemma labels_app ts us : labels (ts ++ us) = labels ts ++ labels us.
  Proof. unfold labels. rewrite map_app, concat_app; auto. Qed.
  Lemma labels_In a ts : In a (labels ts) <-> exists t, In t ts /\ In a (legs t).
  Proof.
    unfold labels. rewrite in_concat. split.
    - intros [l [Il Ia]]. apply in_map_iff in Il as [t [<- It]]. eauto.
    - intros [t [It Ia]]. exists (legs t); split; auto. apply in_map_iff; eauto.
  Qed.

  Lemma term_at_depends t : depends_on (legs t) (fun s => term_at s t).
  Proof.
    intros s s' E. unfold term_at. f_equal. apply map_ext_in; auto.
  Qed.
  Lemma prodf_terms_depends ts : depends_on (labels ts) (fun s => prodf (term_at s) ts).
  Proof.
    intros s s' E. apply prodf_ext. intros t It. apply term_at_depends.
    intros a Ia. apply E. apply labels_In; eauto.
  Qed.
  Lemma delta_out_depends (out : list A) (o : list nat) :
    depends_on out (fun s => kdelta (eqb (map s out) o) : S).
  Proof.
    intros s s' E. rewrite (map_ext_in s s' out); auto.
  Qed.
  Lemma summand_depends out o ts :
    depends_on (out ++ labels ts)
      (fun s => (kdelta (eqb (map s out) o) : S) * prodf (term_at s) ts).
  Proof.
    intros s s' E. f_equal.
    - apply delta_out_depends. intros; apply E, in_app_iff; auto.
    - apply prodf_terms_depends. intros; apply E, in_app_iff; auto.
  Qed.
  Lemma summand_exten out o ts :
    exten (fun s => (kdelta (eqb (map s out) o) : S) * prodf (term_at s) ts).
  Proof. eapply depends_exten, summand_depends. Qed.

  (** ** permutations *)
  Lemma net_value_terms_perm d ts us out o :
    Permutation ts us -> net_value d ts out o = net_value d us out o.
  Proof.
    intros P. unfold net_value. apply esum_ext_all. intros s. f_equal. apply prodf_perm; auto.
  Qed.
  Lemma net_value_dom_perm d d' ts out o :
    Permutation d d' -> NoDup (keys d) -> net_value d ts out o = net_value d' ts out o.
  Proof.
    intros P ND. unfold net_value. apply esum_perm; auto. apply summand_exten.
  Qed.

  (** entries may be changed outside the ranges that are summed over *)
  Definition same_on d t u : Prop :=
    legs t = legs u /\
    forall s, (forall a vs, In (a, vs) d -> In (s a) vs) ->
              entry t (map s (legs t)) = entry u (map s (legs t)).

  Lemma net_value_terms_ext d ts us out o :
    NoDup (keys d) -> Forall2 (same_on d) ts us ->
    net_value d ts out o = net_value d us out o.
  Proof.
    intros ND F. unfold net_value. apply esum_ext; auto. intros s [R _]. f_equal.
    revert us F. induction ts as [|t r IH]; intros us F; inversion F; subst; simpl; auto.
    rewrite (IH l' H3). f_equal. destruct H1 as [L E]. unfold term_at. rewrite <- L. apply E; auto.
  Qed.

  (** ** pinning a list of labels *)
  Fixpoint upds s (ks : list A) (vs : list nat) : env :=
    match ks, vs with
    | k :: kr, v :: vr => upds (upd s k v) kr vr
    | _, _ => s
    end.
  Fixpoint all_in d (vs : list nat) : bool :=
    match d, vs with
    | [], [] => true
    | (_, ws) :: r, v :: vr => mem v ws && all_in r vr
    | _, _ => false
    end.

  Lemma upds_notin ks vs s a : ~ In a ks -> upds s ks vs a = s a.
  Proof.
    revert vs s; induction ks as [|k r IH]; intros [|v w] s N; simpl; auto.
    rewrite IH by (simpl in N; tauto). apply upd_neq. intros ->; apply N; simpl; auto.
  Qed.
  Lemma upds_map ks vs s : NoDup ks -> length ks = length vs -> map (upds s ks vs) ks = vs.
  Proof.
    revert vs s; induction ks as [|k r IH]; intros [|v w] s ND L; simpl in *; try discriminate; auto.
    inversion ND; subst. f_equal.
    - rewrite upds_notin by auto. apply upd_eq.
    - apply IH; auto.
  Qed.
  Lemma upds_self ks s s' a : NoDup ks -> In a ks -> upds s ks (map s' ks) a = s' a.
  Proof.
    revert s; induction ks as [|k r IH]; simpl; intros s ND [].
    - subst. inversion ND; subst. rewrite upds_notin by auto. apply upd_eq.
    - inversion ND; subst. apply IH; auto.
  Qed.

  Lemma esum_pin_list dk d vs f s :
    NoDup (keys (dk ++ d)) -> (forall a ws, In (a, ws) dk -> NoDup ws) ->
    esum (dk ++ d) (fun s => kdelta (eqb (map s (keys dk)) vs) * f s) s
    = kdelta (all_in dk vs) * esum d f (upds s (keys dk) vs).
  Proof.
    revert vs s. induction dk as [|[a ws] r IH]; intros vs s ND Hw.
    - destruct vs as [|v vs]; cbn -[kdelta].
      + rewrite esum_mul_l; auto. intros ? ? _; auto.
      + rewrite esum_mul_l; auto. intros ? ? _; auto.
    - destruct vs as [|v vs].
      + cbn -[esum]. rewrite (@esum_mul_l S A _ _ f (fun _ => 0)).
        * ring.
        * intros ? ? _; auto.
      + cbn [keys map app] in *. simpl in ND. inversion ND as [|? ? Na NDr]; subst.
        rewrite (esum_ext_all _ _
          (fun s => kdelta (eqb (s a) v) * (kdelta (eqb (map s (keys r)) vs) * f s))).
        2:{ intros s'. cbn [fst].
            replace (eqb (s' a :: map s' (map fst r)) (v :: vs))
              with (eqb (s' a) v && eqb (map s' (keys r)) vs) by reflexivity.
            rewrite kdelta_andb. ring. }
        change (@app (A * list nat) ((a, ws) :: r) d) with ((a, ws) :: (r ++ d)).
        rewrite esum_pin; auto; [|apply (Hw a); simpl; auto].
        rewrite IH; auto.
        * cbn [all_in upds fst]. rewrite kdelta_andb. unfold keys. ring.
        * intros b ws' I; apply (Hw b); simpl; auto.
  Qed.

  Lemma all_in_map dk s :
    (forall a ws, In (a, ws) dk -> In (s a) ws) -> all_in dk (map s (keys dk)) = true.
  Proof.
    induction dk as [|[a ws] r IH]; simpl; intros Hs; auto.
    apply andb_true_iff; split; [apply mem_In; apply Hs; auto|apply IH; auto].
  Qed.

  (** the value of a group of tensors, with the kept labels pinned, is the sum
      over the private labels *)
  Lemma group_value dk dp ts s :
    NoDup (keys (dk ++ dp)) -> (forall a ws, In (a, ws) dk -> NoDup ws) ->
    incl (labels ts) (keys (dk ++ dp)) ->
    (forall a ws, In (a, ws) dk -> In (s a) ws) ->
    net_value (dk ++ dp) ts (keys dk) (map s (keys dk)) = esum dp (fun s => prodf (term_at s) ts) s.
  Proof.
    intros ND Hw Hl Hs. unfold net_value. rewrite esum_pin_list by auto.
    rewrite all_in_map by auto. cbn [kdelta]. rewrite kmul_1_l.
    apply esum_start_dep with (L := labels ts); [apply prodf_terms_depends|].
    intros a Ia Na. apply Hl in Ia. unfold keys in Ia. rewrite map_app in Ia.
    apply in_app_iff in Ia as [Ia|Ia]; [|exfalso; auto].
    apply upds_self; auto. unfold keys in ND; rewrite map_app in ND.
    apply NoDup_app_remove_r in ND; auto.
  Qed.

  (** contraction of a group of tensors into one *)
  Lemma contract_group d dp dr (g rest : list term) out o (new : term) :
    Permutation d (dp ++ dr) -> NoDup (keys d) ->
    (forall a, In a (keys dp) -> ~ In a (labels rest) /\ ~ In a out) ->
    (forall s, (forall a vs, In (a, vs) dr -> In (s a) vs) ->
               term_at s new = esum dp (fun s => prodf (term_at s) g) s) ->
    net_value d (g ++ rest) out o = net_value dr (new :: rest) out o.
  Proof.
    intros P ND Hp Hnew.
    assert (P' : Permutation d (dr ++ dp)) by (rewrite P; apply Permutation_app_comm).
    rewrite (net_value_dom_perm _ _ _ P' ND). unfold net_value. rewrite esum_app.
    assert (NDr : NoDup (keys dr)).
    { apply (Permutation_NoDup (Permutation_map fst P')) in ND.
      rewrite map_app in ND. apply NoDup_app_remove_r in ND; auto. }
    apply esum_ext; auto. intros s [R _].
    rewrite (esum_ext_all _ _ (fun s => (kdelta (eqb (map s out) o) * prodf (term_at s) rest)
                                        * prodf (term_at s) g)).
    2:{ intros s'. rewrite prodf_app. ring. }
    rewrite esum_mul_l.
    - cbn [prodf]. rewrite Hnew by auto. ring.
    - eapply depends_indep; [apply summand_depends|].
      intros a Ia Ip. apply Hp in Ip. apply in_app_iff in Ia. tauto.
  Qed.
End Alg.

(** ** relabelling *)
Section Relabel.
  Context {S : scalar} {A B : Type} `{EA : Eqb A} `{EB : Eqb B}.
  Variable r : A -> B.
  Definition relabel_term (t : term S (A := A)) : term S (A := B) :=
    Term (map r (legs t)) (entry t).
  Definition relabel_dom (d : list (A * list nat)) : list (B * list nat) :=
    map (fun p => (r (fst p), snd p)) d.

  Lemma esum_relabel (L : list A) d (f : env (A := A) -> S) (g : env (A := B) -> S) s s' :
    (forall a b, In a L -> In b L -> r a = r b -> a = b) ->
    incl (keys d) L ->
    (forall u v, (forall a, In a L -> u a = v (r a)) -> f u = g v) ->
    (forall a, In a L -> s a = s' (r a)) ->
    esum d f s = esum (relabel_dom d) g s'.
  Proof.
    intros Inj. revert s s'. induction d as [|[a vs] q IH]; simpl; intros s s' I Hfg Hs; auto.
    apply sumf_ext. intros v _. apply IH; auto.
    - intros b Ib; apply I; simpl; auto.
    - intros b Ib. unfold upd. destruct (eqb_spec b a) as [->|N].
      + rewrite eqb_refl; auto.
      + destruct (eqb_spec (r b) (r a)) as [E|_]; auto.
        exfalso; apply N, Inj; auto. apply I; simpl; auto.
  Qed.

  Lemma net_value_relabel d ts out o :
    (forall a b, In a (keys d ++ labels ts ++ out) -> In b (keys d ++ labels ts ++ out) ->
                 r a = r b -> a = b) ->
    net_value d ts out o = net_value (relabel_dom d) (map relabel_term ts) (map r out) o.
  Proof.
    intros Inj. unfold net_value.
    apply esum_relabel with (L := keys d ++ labels ts ++ out); auto.
    - intros a Ia; apply in_app_iff; auto.
    - intros u v E. f_equal.
      + rewrite map_map. rewrite (map_ext_in u (fun a => v (r a)) out); auto.
        intros a Ia; apply E; rewrite !in_app_iff; auto.
      + rewrite prodf_map. apply prodf_ext. intros t It. unfold term_at, relabel_term; simpl.
        rewrite map_map. f_equal. apply map_ext_in. intros a Ia; apply E.
        rewrite !in_app_iff; right; left. apply labels_In; eauto.
  Qed.
End Relabel.
