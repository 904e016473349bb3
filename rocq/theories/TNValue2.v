(** Value lemmas: merging edges, adding and removing nodes. *)
From Verif Require Import Base Scalar NetSpec Sums NetAlg ModelTN TNInv TNOps TNSpec TNMerge TNDelta TNValue.
Set Implicit Arguments.

Lemma get_filter_key {A B} `{Eqb A} (f : A -> bool) k (l : list (A * B)) :
  get k (filter (fun p => f (fst p)) l) = if f k then get k l else None.
Proof.
  induction l as [|[a b] r IH]; simpl.
  - destruct (f k); auto.
  - destruct (f a) eqn:Fa; simpl; destruct (eqb_spec k a) as [->|N]; rewrite ?IH, ?Fa; auto.
Qed.
Lemma keys_filter {A B} (f : A -> bool) (l : list (A * B)) :
  keys (filter (fun p => f (fst p)) l) = filter f (keys l).
Proof.
  induction l as [|[a b] r IH]; simpl; auto. destruct (f a); simpl; rewrite IH; auto.
Qed.
Lemma get_map_pair {A B} `{Eqb A} (f : A -> B) (l : list A) k :
  get k (map (fun a => (a, f a)) l) = if mem k l then Some (f k) else None.
Proof.
  induction l as [|a r IH]; simpl; auto. destruct (eqb_spec k a) as [->|N]; auto.
Qed.
Lemma keys_map_pair {A B} (f : A -> B) (l : list A) : keys (map (fun a => (a, f a)) l) = l.
Proof. unfold keys. rewrite map_map. apply map_id. Qed.

Section Collapse.
  Context {S : scalar} {A : Type} `{Eqb A}.
  Add Ring KringC : (kring S).
  Open Scope K_scope.
  Implicit Types (f : env (A := A) -> S).

  Definition subst_list (G : list A) (m : A) (s : env (A := A)) : env := fun x => if mem x G then s m else s x.

  Lemma esum_collapse (G : list A) (va : A -> list nat) m vm d f s :
    NoDup (m :: G) -> NoDup (keys d) -> (forall a, In a (m :: G) -> ~ In a (keys d)) ->
    (forall a, In a G -> NoDup (va a)) -> exten f ->
    esum (map (fun a => (a, va a)) G ++ (m, vm) :: d)
         (fun s => kdelta (forallb (fun a => eqb (s a) (s m)) G) * f s) s
    = esum ((m, filter (fun v => forallb (fun a => mem v (va a)) G) vm) :: d)
           (fun s => f (subst_list G m s)) s.
  Proof.
    revert f vm. induction G as [|a G IH]; intros f vm ND NDd Hd Hv E.
    - simpl. rewrite filter_true by auto. apply sumf_ext. intros v _.
      apply esum_ext_all. intros s'. simpl. rewrite kmul_1_l. reflexivity.
    - assert (NDa : a <> m /\ ~ In a G /\ ~ In m G /\ NoDup G).
      { inversion ND as [|? ? N1 N2]; subst. inversion N2; subst. simpl in N1. intuition auto. }
      destruct NDa as (Nam & NaG & NmG & NDG).
      set (dG := map (fun a => (a, va a)) G).
      set (f' := fun s => kdelta (forallb (fun a => eqb (s a) (s m)) G) * f s).
      assert (E' : exten f').
      { intros s1 s2 Es. unfold f'. rewrite (E _ _ Es). f_equal. f_equal.
        apply eq_true_iff_eq. rewrite !forallb_forall. split; intros Q b Ib; specialize (Q b Ib);
          rewrite !Es in *; auto. }
      transitivity (esum ((a, va a) :: (m, vm) :: dG ++ d)
                         (fun s => kdelta (eqb (s a) (s m)) * f' s) s).
      + rewrite (esum_ext_all _ _ (fun s => kdelta (eqb (s a) (s m)) * f' s)).
        * apply esum_perm.
          -- simpl. apply perm_skip. symmetry. apply Permutation_middle.
          -- simpl. fold dG. constructor.
             ++ rewrite keys_app. unfold dG. rewrite keys_map_pair, in_app_iff. simpl.
                intros [?|[?|?]]; auto. apply (Hd a); simpl; auto.
             ++ rewrite keys_app. unfold dG. rewrite keys_map_pair. apply NoDup_app_iff. repeat split; auto.
                ** simpl. constructor; auto. apply (Hd m). simpl; auto.
                ** simpl. intros b Ib [<-|Q]; auto. apply (Hd b); simpl; auto.
          -- intros s1 s2 Es. rewrite !Es. f_equal. apply E'; auto.
        * intros s'. unfold f'. simpl. destruct (eqb (s' a) (s' m)); simpl; ring.
      + rewrite esum_identify; auto.
        2:{ rewrite keys_app. unfold dG. rewrite keys_map_pair, in_app_iff. intros [?|?]; auto.
            apply (Hd a); simpl; auto. }
        2:{ rewrite keys_app. unfold dG. rewrite keys_map_pair, in_app_iff. intros [?|?]; auto.
            apply (Hd m); simpl; auto. }
        2:{ apply Hv; simpl; auto. }
        set (f2 := fun s => f (subst_env a m s)).
        transitivity (esum (dG ++ (m, filter (fun v => mem v (va a)) vm) :: d)
           (fun s => kdelta (forallb (fun a => eqb (s a) (s m)) G) * f2 s) s).
        * rewrite (esum_ext_all _ _ (fun s => kdelta (forallb (fun a => eqb (s a) (s m)) G) * f2 s)).
          -- apply esum_perm.
             ++ apply Permutation_middle.
             ++ simpl. rewrite keys_app. unfold dG. rewrite keys_map_pair. constructor.
                ** rewrite in_app_iff. intros [?|?]; auto. apply (Hd m); simpl; auto.
                ** apply NoDup_app_iff. repeat split; auto. intros b Ib Q. apply (Hd b); simpl; auto.
             ++ intros s1 s2 Es. f_equal.
                ** f_equal. apply eq_true_iff_eq. rewrite !forallb_forall.
                   split; intros Q b Ib; specialize (Q b Ib); [rewrite <- !Es|rewrite !Es]; auto.
                ** unfold f2. apply E. intros b. unfold subst_env. rewrite !Es; auto.
          -- intros s'. unfold f', f2. f_equal. f_equal. unfold subst_env.
             apply eq_true_iff_eq. rewrite !forallb_forall.
             assert (Q : forall b, In b G -> eqb b a = false).
             { intros b Ib. apply eqb_neq. congruence. }
             assert (Q2 : eqb m a = false) by (apply eqb_neq; congruence).
             split; intros W b Ib; specialize (W b Ib); rewrite (Q b Ib), Q2 in *; auto.
        * unfold dG. rewrite IH; auto.
          -- simpl. rewrite filter_filter. apply sumf_ext. intros v _. apply esum_ext_all.
             intros s'. unfold f2. apply E. intros b. unfold subst_env, subst_list.
             change (mem b (a :: G)) with (eqb b a || mem b G).
             destruct (eqb_spec b a) as [->|Nb]; simpl; auto.
             destruct (mem_spec m G); tauto.
          -- constructor; auto.
          -- intros b Ib. apply Hd. simpl in *. tauto.
          -- intros b Ib. apply Hv; simpl; auto.
          -- intros s1 s2 Es. unfold f2. apply E. intros b. unfold subst_env. rewrite !Es; auto.
  Qed.
End Collapse.

Section Value.
  Context {S : scalar} {T : Type} `{PT : Payload T}.
  Add Ring KringV2 : (kring S).
  Variable pv : T -> list nat -> S.
  Notation net := (tn T).
  Notation value := (tn_value pv).
  Implicit Types (n : net) (x e m : name).
  Open Scope K_scope.

  (** all labels of [l] carry the same value *)
  Definition all_same (s : env (A := name)) (l : list name) : bool :=
    forallb (fun a => forallb (fun b => eqb (s a) (s b)) l) l.
  Lemma all_same_spec s l : all_same s l = true <-> forall a b, In a l -> In b l -> s a = s b.
  Proof.
    unfold all_same. rewrite forallb_forall. split.
    - intros Q a b Ia Ib. specialize (Q a Ia). rewrite forallb_forall in Q. apply eqb_true, Q; auto.
    - intros Q a Ia. apply forallb_forall. intros b Ib. apply eqb_eq. auto.
  Qed.

  Lemma get_tn_dom n e : get e (tn_dom n) = option_map edge_values (get e (edges n)).
  Proof. unfold tn_dom. apply (get_map edge_values). Qed.
  Definition values_of n e : list nat := match get e (edges n) with Some ed => edge_values ed | None => [] end.

  (** terms of a network whose node legs are mapped *)
  Lemma terms_map_legs n n' (h : name -> name) s :
    NoDup (keys (nodes n)) -> NoDup (keys (nodes n')) ->
    (forall x, match get x (nodes n), get x (nodes n') with
               | Some nd, Some nd' => n_legs nd' = map h (n_legs nd) /\ n_val nd' = n_val nd
               | None, None => True
               | _, _ => False
               end) ->
    prodf (term_at s) (tn_terms pv n') = prodf (term_at (fun a => s (h a))) (tn_terms pv n).
  Proof.
    intros N1 N2 Hx.
    set (f := fun nd : node T => (n_legs nd, n_val nd)).
    set (fh := fun nd : node T => (map h (n_legs nd), n_val nd)).
    set (g := fun p : name * (list name * option T) =>
                match snd (snd p) with Some t => pv t (map s (fst (snd p))) | None => 0 end).
    assert (E1 : prodf (term_at s) (tn_terms pv n') =
                 prodf g (map (fun p => (fst p, f (snd p))) (nodes n'))).
    { unfold tn_terms. rewrite !prodf_map. apply prodf_ext. intros [a nd] _.
      unfold term_at, g, node_term; simpl. destruct (n_val nd); auto. }
    assert (E2 : prodf (term_at (fun a => s (h a))) (tn_terms pv n) =
                 prodf g (map (fun p => (fst p, fh (snd p))) (nodes n))).
    { unfold tn_terms. rewrite !prodf_map. apply prodf_ext. intros [a nd] _.
      unfold term_at, g, node_term; simpl. rewrite map_map. destruct (n_val nd); auto. }
    rewrite E1, E2. apply prodf_perm. apply assoc_perm.
    - rewrite keys_map; auto.
    - rewrite keys_map; auto.
    - intros x. rewrite !get_map. specialize (Hx x). unfold f, fh.
      destruct (get x (nodes n)), (get x (nodes n')); try tauto. destruct Hx as [Q1 Q2]; simpl; rewrite Q1, Q2; auto.
  Qed.

  Lemma values_lt n e ed d v :
    wf n -> get e (edges n) = Some ed -> e_dim ed = Some d -> In v (edge_values ed) -> v < d.
  Proof.
    intros W G D. unfold edge_values. destruct (e_fix ed) as [fx|] eqn:F.
    - destruct (@wf_fix _ n W e ed fx G F) as [d' [D' Fa]]. rewrite Forall_forall in Fa.
      rewrite D in D'; inversion D'; subst. apply Fa.
    - rewrite D. intros I. apply in_seq in I. lia.
  Qed.

  Definition merge_group n (es : list name) m : list name := if has m (edges n) then m :: es else es.

  Lemma value_merged_with n es m n' D o (L : list name) (g : env (A := name) -> S) :
    wf n -> fix_nodup n -> merged n es m n' -> es <> [] ->
    (forall e ed, In e (merge_group n es m) -> get e (edges n) = Some ed -> e_dim ed = Some D) ->
    depends_on L g -> (forall e, In e (m :: es) -> ~ In e L) ->
    esum (tn_dom n') (fun s => g s * summand pv n' o s) env0 =
    esum (tn_dom n) (fun s => kdelta (all_same s (merge_group n es m)) * (g s * summand pv n o s)) env0.
  Proof.
    intros W Fx Mg Nes HD Dg Lg.
    pose proof (depends_exten Dg) as Eg.
    pose proof (merged_wf Mg W) as W'.
    destruct Mg as [M1 M2 M3 M4 (em & em' & M5 & M6 & M7 & M8 & M9 & M10) M11 M12 M13 M14 M15].
    assert (HDes : forall e ed, In e es -> get e (edges n) = Some ed -> e_dim ed = Some D).
    { intros e ed I G. eapply HD; eauto. unfold merge_group. destruct (has m (edges n)); simpl; auto. }
    assert (Dm : e_dim em = Some D) by (apply M6; auto).
    set (G := dedup (filter (fun a => negb (eqb m a)) es)).
    assert (GI : forall a, In a G <-> In a es /\ a <> m).
    { intros a. unfold G. rewrite dedup_In, filter_In, negb_true_iff, eqb_neq. intuition auto. }
    assert (GN : NoDup G) by apply dedup_NoDup.
    set (vm := edge_values em).
    set (rest := filter (fun p : name * list nat => negb (mem (fst p) (m :: G))) (tn_dom n)).
    assert (NDr : NoDup (keys rest)).
    { unfold rest. rewrite (keys_filter (fun a => negb (mem a (m :: G)))). apply NoDup_filter'.
      rewrite keys_tn_dom. apply W. }
    assert (Hr : forall a, In a (m :: G) -> ~ In a (keys rest)).
    { intros a Ia. unfold rest. rewrite (keys_filter (fun a => negb (mem a (m :: G)))), filter_In.
      intros [_ Q]. apply negb_true_iff, mem_false in Q. auto. }
    assert (NDmG : NoDup (m :: G)).
    { constructor; auto. rewrite GI. tauto. }
    assert (Vn : forall a, In a G -> NoDup (values_of n a)).
    { intros a Ia. unfold values_of. destruct (get a (edges n)) eqn:Ga; [|constructor].
      eapply edge_values_nodup; eauto. }
    (* value of the merged network as a collapsed sum *)
    assert (Vmlt : forall v, In v vm -> v < D).
    { intros v Iv. unfold vm in Iv. unfold edge_values in Iv. destruct (e_fix em) as [fx|] eqn:F.
      - destruct (get m (edges n)) as [ed|] eqn:Gm; [|congruence]. destruct M5 as [F5 D5].
        destruct (@wf_fix _ n W m ed fx Gm) as [d [Dd Fa]]; [congruence|].
        rewrite Forall_forall in Fa. specialize (D5 _ Dd). rewrite Dm in D5; inversion D5; subst. auto.
      - rewrite Dm in Iv. apply in_seq in Iv. lia. }
    assert (FO : filter (fix_ok n es) vm = filter (fun v => forallb (fun a => mem v (values_of n a)) G) vm).
    { apply filter_ext_in. intros v Iv. apply eq_true_iff_eq. unfold fix_ok. rewrite !forallb_forall.
      assert (K : forall a, In a es -> exists ed, get a (edges n) = Some ed /\ e_dim ed = Some D).
      { intros a Ia. destruct (key_get _ _ (M1 _ Ia)) as [ed Ga]. exists ed; split; eauto. }
      split.
      - intros Q a Ia. apply GI in Ia as [Ia Na]. specialize (Q a Ia). unfold values_of.
        destruct (K _ Ia) as (ed & Ga & Da). rewrite Ga in *. unfold edge_values.
        destruct (e_fix ed); auto. rewrite Da. apply mem_In, in_seq. specialize (Vmlt _ Iv). lia.
      - intros Q a Ia. destruct (K _ Ia) as (ed & Ga & Da). rewrite Ga.
        destruct (e_fix ed) as [fx|] eqn:F; auto. destruct (eq_dec_of_eqb a m) as [->|Na].
        + rewrite Ga in M5. destruct M5 as [F5 _]. unfold vm, edge_values in Iv. rewrite F5, F in Iv.
          apply mem_In; auto.
        + specialize (Q a). rewrite GI in Q. specialize (Q (conj Ia Na)).
          unfold values_of, edge_values in Q. rewrite Ga, F in Q. auto. }
    assert (P' : Permutation (tn_dom n') ((m, filter (fun v => forallb (fun a => mem v (values_of n a)) G) vm) :: rest)).
    { apply assoc_perm.
      - rewrite keys_tn_dom; auto.
      - simpl. constructor; auto. apply Hr; simpl; auto.
      - intros a. rewrite get_tn_dom. simpl. destruct (eqb_spec a m) as [->|Na].
        + rewrite M7. simpl. rewrite M9. fold vm. rewrite FO; auto.
        + unfold rest. rewrite (get_filter_key (fun a => negb (mem a (m :: G)))), get_tn_dom.
          destruct (mem_spec a (m :: G)) as [I|I]; simpl.
          * destruct I as [?|I]; [congruence|]. apply GI in I as [I _].
            rewrite (proj2 (get_None _ _)); auto. rewrite M2. tauto.
          * rewrite M4; auto. intros I'. apply I. right. apply GI. auto. }
    assert (SU : forall s, summand pv n' o s = summand pv n o (subst_list G m s)).
    { intros s. unfold summand.
      assert (HL : forall a, s (merge_label es m a) = subst_list G m s a).
      { intros a. unfold merge_label, subst_list. destruct (mem_spec a G) as [I|I].
        - apply GI in I as [I _]. apply mem_In in I. rewrite I. auto.
        - destruct (mem_spec a es) as [I'|I']; auto.
          destruct (eq_dec_of_eqb a m) as [->|Na]; auto. exfalso. apply I, GI. auto. }
      f_equal.
      - rewrite M13, map_map. f_equal. f_equal. apply map_ext; auto.
      - rewrite (@terms_map_legs n n' (merge_label es m) s); auto.
        + apply prodf_ext. intros t _. apply term_at_depends. intros; auto.
        + apply W.
        + apply W'. }
    assert (V' : esum (tn_dom n') (fun s => g s * summand pv n' o s) env0 = esum (map (fun a => (a, values_of n a)) G ++ (m, vm) :: rest)
                   (fun s => kdelta (forallb (fun a => eqb (s a) (s m)) G) * (g s * summand pv n o s)) env0).
    { assert (Ef : exten (fun s => g s * summand pv n o s)).
      { intros s1 s2 Es. rewrite (Eg _ _ Es). f_equal. apply summand_ext; auto. }
      rewrite esum_collapse; auto.
      rewrite (@esum_perm _ _ _ _ _ _ _ P');
        [|rewrite keys_tn_dom; auto|intros s1 s2 Es; rewrite (Eg _ _ Es); f_equal; apply summand_ext; auto].
      apply esum_ext_all. intros s. rewrite SU. f_equal. apply Dg. intros a Ia. unfold subst_list.
      destruct (mem_spec a G) as [I|I]; auto. exfalso. apply GI in I as [I _]. apply (Lg a); simpl; auto. }
    rewrite V'. clear V' SU P' FO M15 M14 M13 M12 M11 M10 M9 M8 M7.
    assert (EX : exten (fun s => kdelta (forallb (fun a => eqb (s a) (s m)) G) * (g s * summand pv n o s))).
    { intros s1 s2 Es. f_equal; [f_equal|rewrite (Eg _ _ Es); f_equal; apply summand_ext; auto].
      apply eq_true_iff_eq. rewrite !forallb_forall.
      split; intros Q b Ib; specialize (Q b Ib); [rewrite <- !Es|rewrite !Es]; auto. }
    assert (NDall : NoDup (keys (map (fun a => (a, values_of n a)) G ++ (m, vm) :: rest))).
    { rewrite keys_app, keys_map_pair. simpl. apply NoDup_app_iff. repeat split; auto.
      - constructor; auto. apply Hr; simpl; auto.
      - simpl. intros b Ib [<-|Q]; [apply GI in Ib; tauto|]. apply (Hr b); simpl; auto. }
    assert (Getall : forall a, a <> m ->
       get a (map (fun a => (a, values_of n a)) G ++ (m, vm) :: rest) = get a (tn_dom n)).
    { intros a Na. rewrite get_app, get_map_pair. destruct (mem_spec a G) as [I|I].
      - apply GI in I as [I _]. rewrite get_tn_dom. unfold values_of.
        destruct (key_get _ _ (M1 _ I)) as [ed Ga]. rewrite Ga; auto.
      - simpl. rewrite (proj2 (eqb_neq _ _) Na). unfold rest.
        rewrite (get_filter_key (fun a => negb (mem a (m :: G)))).
        destruct (mem_spec a (m :: G)) as [[?|?]|?]; simpl; auto; [congruence|tauto]. }
    assert (Getm : get m (map (fun a => (a, values_of n a)) G ++ (m, vm) :: rest) = Some vm).
    { rewrite get_app, get_map_pair. destruct (mem_spec m G) as [I|I]; [apply GI in I; tauto|].
      simpl. rewrite eqb_refl; auto. }
    unfold merge_group. destruct (has m (edges n)) eqn:Hm.
    - (* the target existed *)
      apply has_In in Hm. destruct (key_get _ _ Hm) as [edm Gm]. rewrite Gm in M5. destruct M5 as [F5 D5].
      assert (Dm0 : e_dim edm = Some D).
      { eapply HD; eauto. unfold merge_group. rewrite (proj2 (has_In _ _)); simpl; auto. }
      assert (Evm : vm = edge_values edm).
      { unfold vm, edge_values. rewrite F5, Dm, Dm0; auto. }
      rewrite (@esum_perm _ _ _ _ (tn_dom n)); auto.
      + apply esum_ext_all. intros s. f_equal. f_equal. apply eq_true_iff_eq.
        rewrite forallb_forall, all_same_spec. split.
        * intros Q.
          assert (Q' : forall a, In a (m :: es) -> s a = s m).
          { intros a Ia. destruct (eq_dec_of_eqb a m) as [->|Na]; auto.
            apply eqb_true, Q, GI. destruct Ia; [congruence|auto]. }
          intros a b Ia Ib. rewrite (Q' a Ia), (Q' b Ib); auto.
        * intros Q a Ia. apply eqb_eq. apply Q; simpl; auto. right. apply GI in Ia; tauto.
      + apply assoc_perm; auto; [rewrite keys_tn_dom; apply W|]. intros a.
        destruct (eq_dec_of_eqb a m) as [->|Na]; [|auto].
        rewrite Getm, get_tn_dom, Gm. simpl. congruence.
    - (* a new target *)
      assert (Nm : ~ In m (keys (edges n))) by (rewrite <- has_In; congruence).
      assert (Gm : get m (edges n) = None) by (apply get_None; auto). rewrite Gm in M5.
      assert (Evm : vm = seq 0 D) by (unfold vm, edge_values; rewrite M5, Dm; auto).
      rewrite (@esum_perm _ _ _ _ (tn_dom n ++ [(m, vm)])); auto.
      2:{ apply assoc_perm; auto.
          - rewrite keys_app, keys_tn_dom. simpl. apply NoDup_snoc; auto. apply W.
          - intros a. destruct (eq_dec_of_eqb a m) as [->|Na].
            + rewrite Getm, get_app, get_tn_dom, Gm. simpl. rewrite eqb_refl; auto.
            + rewrite Getall by auto. rewrite get_app. simpl. rewrite (proj2 (eqb_neq _ _) Na).
              destruct (get a (tn_dom n)); auto. }
      rewrite esum_app. apply esum_ext; [rewrite keys_tn_dom; apply W|]. intros s [Rs _].
      simpl. rewrite Evm.
      destruct es as [|a0 es']; [congruence|]. set (es := a0 :: es') in *.
      assert (Na0 : a0 <> m) by (intros ->; apply Nm, M1; simpl; auto).
      assert (Nin : forall a, In a es -> a <> m) by (intros a Ia ->; apply Nm, M1; auto).
      rewrite (sumf_ext _ (fun v => kdelta (eqb v (s a0)) * (kdelta (all_same s es) * (g s * summand pv n o s)))).
      + rewrite sumf_pin by apply seq_NoDup.
        destruct (mem_spec (s a0) (seq 0 D)) as [I|I]; [simpl; ring|].
        exfalso. apply I. apply in_seq.
        assert (I0 : In a0 (keys (edges n))) by (apply M1; simpl; auto).
        destruct (key_get _ _ I0) as [ed0 G0].
        assert (s a0 < D)%nat; [|lia]. apply (@values_lt n a0 ed0 D (s a0) W G0).
        * apply HDes with (e := a0); simpl; auto.
        * apply Rs. apply get_In. rewrite get_tn_dom, G0. auto.
      + intros v _.
        assert (S1 : summand pv n o (upd s m v) = summand pv n o s).
        { apply (@summand_depends S name (opens n) o (tn_terms pv n)).
          intros a Ia. apply upd_neq. intros ->. apply in_app_iff in Ia as [Ia|Ia].
          - apply Nm, (wf_opens W); auto.
          - apply labels_In in Ia as [t [It Ia]]. unfold tn_terms in It.
            apply in_map_iff in It as [[y nd] [<- Iy]]. simpl in Ia.
            apply In_get in Iy; [|apply W]. apply Nm. eapply (wf_legs W); eauto. }
        rewrite S1. replace (g (upd s m v)) with (g s)
          by (apply Dg; intros a Ia; symmetry; apply upd_neq; intros ->; apply (Lg m); simpl; auto).
        assert (B : forallb (fun a => eqb (upd s m v a) (upd s m v m)) G = eqb v (s a0) && all_same s es).
        { apply eq_true_iff_eq. rewrite andb_true_iff, forallb_forall, all_same_spec, eqb_eq. split.
          - intros Q.
            assert (Q' : forall a, In a es -> s a = v).
            { intros a Ia. specialize (Q a). rewrite GI in Q. specialize (Q (conj Ia (Nin _ Ia))).
              apply eqb_true in Q. rewrite upd_eq, upd_neq in Q; auto. }
            split; [symmetry; apply Q'; simpl; auto|]. intros a b Ia Ib. rewrite (Q' a), (Q' b); auto.
          - intros [-> Q] a Ia. apply GI in Ia as [Ia Na]. apply eqb_eq. rewrite upd_eq, upd_neq by auto.
            apply Q; simpl; auto. }
        rewrite B, kdelta_and. ring.
  Qed.
  Lemma value_merged n es m n' D o :
    wf n -> fix_nodup n -> merged n es m n' -> es <> [] ->
    (forall e ed, In e (merge_group n es m) -> get e (edges n) = Some ed -> e_dim ed = Some D) ->
    value n' o =
    esum (tn_dom n) (fun s => kdelta (all_same s (merge_group n es m)) * summand pv n o s) env0.
  Proof.
    intros W Fx Mg Nes HD.
    transitivity (esum (tn_dom n') (fun s => 1 * summand pv n' o s) env0).
    { rewrite value_summand. apply esum_ext_all. intros s. ring. }
    rewrite (@value_merged_with n es m n' D o [] (fun _ => 1)); auto.
    - apply esum_ext_all. intros s. ring.
    - intros s1 s2 _. auto.
  Qed.
End Value.
