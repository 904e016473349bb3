(** The compiled tasks and the queries. *)
From Coq Require Import Reals Lra.
From Verif Require Import Base Scalar NetSpec Sums NetAlg ModelArray ModelTN TNInv TNOps TNSpec TNDelta TNDeltaValue TNValue TNExact ModelVal ArrayProofs
  ModelContract ContractFix ContractNet ContractTemplate ContractExec ContractMerge ContractMain ContractFlat NameOrder ContractData ContractUser
  ContractSession Complex QaoaSpec ModelQaoa QaoaNet QaoaBuild QaoaMath QaoaCone QaoaPairs QaoaValue.
Set Implicit Arguments.
Open Scope nat_scope.
Add Ring CKring_qt : (kring CK).

(** ** networks of blank nodes with arrays *)
Section Arrays.
  Context {T : Type}.
  Variables (n : tn T) (L : list (name * list name)).
  Hypothesis B : blank n L (Some 2).
  Variable D : name -> nd CK.
  Definition arrays_of : list (name * nd CK) := map (fun x => (x, D x)) (keys (nodes n)).

  Lemma get_arrays x : In x (keys (nodes n)) -> get x arrays_of = Some (D x).
  Proof.
    unfold arrays_of. induction (keys (nodes n)) as [|y r IH]; intros I; [destruct I|]. cbn [map get].
    destruct (eqb_spec x y) as [Eq|N]; [rewrite Eq; reflexivity|]. destruct I as [I|I]; [congruence|auto].
  Qed.
  Lemma with_arrays_blank (d : list (name * nd CK)) : blank (with_arrays n d) L (Some 2).
  Proof.
    destruct B as [B1 B2 B3 B4 B5]. constructor; auto.
    - unfold legs_list in *. cbn [with_arrays nodes]. rewrite map_map. exact B1.
    - destruct B5 as [W C]. split; [apply with_arrays_wf; auto|exact C].
  Qed.
  Lemma leg_dim x v e : get x (nodes n) = Some v -> In e (n_legs v) -> edim n e = Some 2.
  Proof.
    intros G I. assert (K : In e (keys (edges n))).
    { apply (bk_edges B). exists x, (n_legs v). split; auto. rewrite <- (bk_nodes B). unfold legs_list.
      apply get_In in G. apply (in_map (fun q => (fst q, n_legs (snd q)))) in G. exact G. }
    apply key_get in K as [ed Ge]. unfold edim. rewrite Ge, (bk_ed B _ Ge). reflexivity.
  Qed.
  Lemma fits_arrays : (forall x ls, In (x, ls) L -> nd_shape (D x) = repeat 2 (length ls)) -> fits_net n arrays_of.
  Proof.
    intros H. constructor.
    - unfold arrays_of, keys. rewrite map_map. cbn [fst]. rewrite map_id. reflexivity.
    - intros x v a G Ga. rewrite get_arrays in Ga by (eapply get_Some_key; eauto). inversion Ga; subst a.
      assert (I : In (x, n_legs v) L).
      { rewrite <- (bk_nodes B). apply get_In in G. apply (in_map (fun q => (fst q, n_legs (snd q)))) in G. exact G. }
      rewrite (H _ _ I). assert (Q : forall e, In e (n_legs v) -> edim n e = Some 2) by (intros; eapply leg_dim; eauto).
      clear - Q. induction (n_legs v) as [|e r IH]; auto. cbn [length repeat map]. rewrite IH, Q by (intros; try apply Q; simpl; auto). reflexivity.
  Qed.
  Lemma arrays_value E : NoDup E -> (forall e, In e E <-> leg_of L e) ->
    value (with_arrays n arrays_of) [] =
    esum (two E) (fun s => prodf (fun z => nd_at (D (fst z)) (map s (snd z))) L) env0.
  Proof.
    intros ND HE. unfold value, tn_value, net_value.
    cbn [with_arrays opens]. rewrite (bk_opens B).
    transitivity (esum (two E) (fun s => (kdelta (eqb (map s []) []) * prodf (term_at s) (tn_terms (@nd_at CK) (with_arrays n arrays_of)))%K) env0).
    - apply esum_perm.
      + assert (Q : tn_dom (with_arrays n arrays_of) = two (keys (edges n))).
        { unfold tn_dom, two, keys. cbn [with_arrays edges]. rewrite map_map. apply map_ext_in. intros [e ed] I. cbn [fst snd].
          rewrite (bk_ed B e (In_get _ _ _ (wf_edges (proj1 (bk_inv B))) I)). reflexivity. }
        rewrite Q. apply Permutation_map. apply NoDup_Permutation; auto; [apply (wf_edges (proj1 (bk_inv B)))|].
        intros e. rewrite (bk_edges B), HE. reflexivity.
      + unfold tn_dom, keys. cbn [with_arrays edges]. rewrite map_map. cbn [fst]. apply (wf_edges (proj1 (bk_inv B))).
      + intros s s' E'. f_equal. apply prodf_ext. intros q _. unfold term_at. f_equal. apply map_ext. auto.
    - apply esum_ext_all. intros s. cbn [map]. change (eqb (@nil nat) []) with true. cbn [kdelta]. rewrite kmul_1_l.
      unfold tn_terms. rewrite prodf_map. cbn [with_arrays nodes]. rewrite prodf_map, <- (bk_nodes B). unfold legs_list.
      rewrite prodf_map. apply prodf_ext. intros [x v] I. unfold term_at, node_term. cbn [fst snd legs entry n_legs n_val].
      rewrite get_arrays; auto. apply (in_map fst) in I. exact I.
  Qed.
End Arrays.

Section Task.
  Local Existing Instance tval_payload.
  Variable iter : list Z -> list Z.
  Variable c : csp.
  Hypothesis iter_perm : forall l, Permutation (iter l) l.
  Hypothesis valid : valid_csp c.
  Variable p : nat.
  Hypothesis p_pos : 0 < p.

  Notation items cl := (final_items iter c cl p).

  Lemma item_cases cl x ls : In cl (map fst c) -> In (x, ls) (items cl) ->
    (exists i q, x = qname (2 * i + 1) q /\ length ls = 2 /\ forall ps k, nd_shape (node_data c p ps k x) = [2; 2]) \/
    (exists i z, In z c /\ x = cname (2 * i) (fst z) /\ length ls = length (fst z) /\
       forall ps k, nd_shape (node_data c p ps k x) = repeat 2 (length (fst z))).
  Proof.
    intros Icl I. unfold final_items in I. apply in_app_iff in I as [I|[I|[]]].
    - unfold relabel_items in I. apply in_map_iff in I as ([y ms] & E & I). cbn [fst snd] in E. inversion E; subst x ls. clear E.
      unfold all_items in I. apply in_concat in I as (m & Im & I). apply in_map_iff in Im as (i & <- & _).
      unfold round_items in I. rewrite in_app_iff, !in_concat in I. destruct I as [(m & Im & I)|(m & Im & I)].
      + apply in_map_iff in Im as (q & <- & _). left. destruct I as [I|[I|[]]]; assert (E1 := f_equal fst I); assert (E2 := f_equal snd I); cbn [fst snd] in E1, E2; subst y ms.
        * exists (Z.of_nat i), q. split; auto. split; auto. intros ps k. rewrite mixer_up. reflexivity.
        * exists (- Z.of_nat i - 1)%Z, q. split; [f_equal; lia|]. split; auto. intros ps k. rewrite mixer_down. reflexivity.
      + apply in_map_iff in Im as (q & <- & Iq). right. unfold phase_items in I. destruct (touches _ q); [|destruct I].
        apply in_map_iff in Iq as (z & <- & Iz).
        assert (Sh : forall ps j, nd_shape (phase_data c p ps j (NT (map NI (fst z)))) = repeat 2 (length (fst z))).
        { intros ps j. unfold phase_data. rewrite table_hit by auto. destruct (0 <? j)%Z; reflexivity. }
        destruct I as [I|[I|[]]]; assert (E1 := f_equal fst I); assert (E2 := f_equal snd I); cbn [fst snd] in E1, E2; subst y ms.
        * exists (Z.of_nat i + 1)%Z, z. split; auto. split; [f_equal; lia|]. split; [rewrite !map_length; auto|].
          intros ps k. unfold node_data, cname. replace (2 * Z.of_nat i + 2 =? 0)%Z with false by (symmetry; apply Z.eqb_neq; lia).
          replace (Z.even (2 * Z.of_nat i + 2)) with true by (rewrite Z.add_comm, Z.even_add_mul_2; reflexivity). apply Sh.
        * exists (- Z.of_nat i - 1)%Z, z. split; auto. split; [f_equal; lia|]. split; [rewrite !map_length; auto|].
          intros ps k. unfold node_data, cname. replace (- 2 * Z.of_nat i - 2 =? 0)%Z with false by (symmetry; apply Z.eqb_neq; lia).
          replace (Z.even (- 2 * Z.of_nat i - 2)) with true; [apply Sh|].
          replace (- 2 * Z.of_nat i - 2)%Z with (0 + 2 * (- Z.of_nat i - 1))%Z by lia. rewrite Z.even_add_mul_2. reflexivity.
    - inversion I; subst x ls. right. apply in_map_iff in Icl as (z & <- & Iz). exists 0%Z, z. split; auto. split; auto.
      split; [apply map_length|]. intros ps k. unfold node_data, cname. rewrite Z.eqb_refl. unfold cost_data. rewrite table_hit by auto. reflexivity.
  Qed.
  Lemma item_shape cl x ls ps k : In cl (map fst c) -> In (x, ls) (items cl) -> nd_shape (node_data c p ps k x) = repeat 2 (length ls).
  Proof.
    intros Icl I. destruct (@item_cases cl _ _ Icl I) as [(i & q & _ & Ln & H)|(i & z & _ & _ & Ln & H)]; rewrite H, Ln; reflexivity.
  Qed.

  Lemma ints_comparable (a : list Z) : forall b, exists r, name_lt (NT (map NI a)) (NT (map NI b)) = Ok r.
  Proof.
    induction a as [|x a IH]; intros [|y b]; try (eexists; reflexivity). cbn [map]. specialize (IH b).
    cbn [name_lt] in *. destruct (eqb (NI x) (NI y)); [exact IH|eexists; reflexivity].
  Qed.
  Lemma items_comparable cl : In cl (map fst c) -> comparable (map fst (items cl)).
  Proof.
    intros Icl x y Ix Iy _. apply in_map_iff in Ix as ([x' ls] & E & Ix). apply in_map_iff in Iy as ([y' ms] & E' & Iy).
    cbn [fst] in *. subst x' y'.
    assert (Hd : forall i j a b, i <> j -> exists r, name_lt (NT [NI i; a]) (NT [NI j; b]) = Ok r).
    { intros i j a b N. cbn [name_lt]. destruct (eqb_spec (NI i) (NI j)) as [E|]; [inversion E; congruence|]. eexists; reflexivity. }
    assert (Tl : forall i a b, (exists r, name_lt a b = Ok r) -> exists r, name_lt (NT [NI i; a]) (NT [NI i; b]) = Ok r).
    { intros i a b H. cbn [name_lt]. rewrite eqb_refl. destruct (eqb a b); [eexists; reflexivity|exact H]. }
    destruct (@item_cases cl _ _ Icl Ix) as [(i & q & -> & _)|(i & z & _ & -> & _)], (@item_cases cl _ _ Icl Iy) as [(j & r & -> & _)|(j & w & _ & -> & _)];
      unfold qname, cname.
    - destruct (Z.eq_dec (2 * i + 1) (2 * j + 1)) as [E|]; [rewrite E|apply Hd; auto]. apply Tl. eexists; reflexivity.
    - apply Hd. lia.
    - apply Hd. lia.
    - destruct (Z.eq_dec (2 * i) (2 * j)) as [E|]; [rewrite E|apply Hd; auto]. apply Tl. apply ints_comparable.
  Qed.
  Lemma items_no_star cl : In cl (map fst c) -> ~ In star (map fst (items cl)).
  Proof.
    intros Icl I. apply in_map_iff in I as ([x ls] & E & I). cbn [fst] in E. subst x.
    destruct (@item_cases cl _ _ Icl I) as [(i & q & E & _)|(i & z & _ & E & _)]; discriminate.
  Qed.

  (** ** compilation *)
  Lemma blanks_get (n : tn (tval CK)) x v : get x (nodes n) = Some v -> get x (blanks n) = Some (nd_zeros CK (repeat 2 (length (n_legs v)))).
  Proof.
    unfold blanks. induction (nodes n) as [|[y w] r IH]; intros G; [discriminate|]. cbn [get map fst snd] in *.
    destruct (eqb x y); [inversion G; reflexivity|auto].
  Qed.
  Lemma keys_legs {T} (n : tn T) L d : blank n L d -> keys (nodes n) = map fst L.
  Proof. intros B. rewrite <- (bk_nodes B). unfold legs_list, keys. rewrite map_map. reflexivity. Qed.
  Lemma dims_all {T} (n : tn T) L l : blank n L (Some 2) -> (exists x v, get x (nodes n) = Some v /\ l = n_legs v) -> map (edim n) l = map Some (repeat 2 (length l)).
  Proof.
    intros B (x & v & G & ->). assert (Q : forall e, In e (n_legs v) -> edim n e = Some 2) by (intros; eapply leg_dim; eauto).
    clear - Q. induction (n_legs v) as [|e r IH]; auto. cbn [length repeat map]. rewrite IH, Q by (intros; try apply Q; simpl; auto). reflexivity.
  Qed.
  Lemma blank_contractible cl (n : tn (tval CK)) : In cl (map fst c) -> blank n (items cl) (Some 2) -> contractible Ok (with_arrays n (blanks n)).
  Proof.
    intros Icl B. assert (B' := with_arrays_blank B (blanks n)). constructor.
    - apply (bk_inv B').
    - intros e ed fx G F. rewrite (bk_ed B' _ G) in F. discriminate.
    - intros e k. rewrite (bk_opens B'). split; intros L; exfalso; [|unfold times in L; simpl in L; lia]. unfold times in L; simpl in L; lia.
    - rewrite (keys_legs B'). apply items_no_star; auto.
    - intros e. rewrite (bk_opens B'). intros [].
    - intros x d G. rewrite with_arrays_get in G. destruct (get x (nodes n)) as [v|] eqn:Gx; [|discriminate].
      rewrite (blanks_get _ _ Gx) in G. inversion G; subst d. cbn [n_val n_legs]. eexists _, _. split; [reflexivity|]. split; [reflexivity|].
      apply (@dims_all _ n (items cl)); auto. eauto.
    - intros e ed fx G F. rewrite (bk_ed B' _ G) in F. discriminate.
  Qed.
  Lemma blank_no_idle {T} (n : tn T) L d : blank n L (Some 2) -> no_idle_edge (S := CK) (with_arrays n d).
  Proof.
    intros B. assert (B' := with_arrays_blank B d). intros e ed G. right; right.
    assert (K : In e (keys (edges (with_arrays n d)))) by (eapply get_Some_key; eauto).
    apply (bk_edges B') in K as (x & ls & I & Ie). rewrite <- (bk_nodes B') in I. unfold legs_list in I.
    apply in_map_iff in I as ([y v] & E & I). cbn [fst snd] in E. inversion E; subst. exists x, v. split; auto.
    apply In_get; auto. apply (wf_nodes (proj1 (bk_inv B'))).
  Qed.
  Lemma blank_delta {T} `{Payload T} (n : tn T) L d : blank n L d -> L <> [] -> complete_delta (copy_tn n) = (copy_tn n, Ok tt).
  Proof.
    intros B N. unfold complete_delta, mbind, getst. destruct (has star (nodes (copy_tn n))); [reflexivity|].
    assert (O : opens (copy_tn n) = []) by apply (bk_opens B). rewrite O.
    assert (Nn : nodes (copy_tn n) <> []).
    { intros E. apply N. rewrite <- (bk_nodes B). unfold legs_list. change (nodes n) with (nodes (copy_tn n)). rewrite E. reflexivity. }
    destruct (nodes (copy_tn n)); [congruence|]. reflexivity.
  Qed.

  Definition scheme_ok (n : tn (tval CK)) (s : scheme) : Prop :=
    incl (s_split s) (keys (edges n)) /\ (s_order s = [] \/ valid_order (keys (nodes n)) (s_order s)) /\ fits_memory (s_memory s) (s_cost s).

  Record prep_ok (cl : list Z) (a : prepared) : Prop := {
    po_size : pr_size a = length (cone c cl p);
    po_net : exists (m : tn (nd CK)) split path, blank m (items cl) (Some 2) /\ pr_names a = keys (nodes m) /\
      ready Ok m /\ good_slices m split /\ path_ok m path /\ merge_ok m split /\ pr_task a = the_task m split path /\
      ready_state Ok m split (pr_store a)
  }.

  Lemma preprocess_clause_ok sch cl : In cl (map fst c) ->
    (forall n k, clause_net iter c p cl = Ok (n, k) -> scheme_ok n (sch cl)) ->
    exists a, preprocess_clause iter c p sch cl = Ok a /\ prep_ok cl a.
  Proof.
    intros Icl Hs. destruct (@clause_net_run iter c iter_perm valid cl p p_pos) as (n & E & B).
    destruct (Hs _ _ E) as (Sp & So & Sm). unfold preprocess_clause. rewrite E. cbn [bind fst snd].
    assert (B' := with_arrays_blank B (blanks n)).
    assert (Ct := @blank_contractible cl n Icl B).
    assert (Dl : complete_delta (copy_tn (with_arrays n (blanks n))) = (copy_tn (with_arrays n (blanks n)), Ok tt)).
    { apply (@blank_delta _ _ _ _ _ B'). unfold final_items. intros E0. apply app_eq_nil in E0 as [_ E0]. discriminate. }
    destruct (@compile_net_ok CK (nd CK) _ (@nd_at CK) Ok (nd_laws CK) (nd_ev_laws CK) (with_arrays n (blanks n)) (s_memory (sch cl)) (s_cost (sch cl))
      (s_order (sch cl)) (s_split (sch cl)) Ct) as (m & path & st & Em & Ec & R & Gs & MO & PO & Gd & _); auto.
    { intros n' En. rewrite Dl in En. inversion En; subst n'. split; [|split].
      - constructor; intros e I; apply Sp in I; apply key_get in I as [ed Ge].
        + unfold fixedb. cbn [copy_tn with_idc edges with_arrays]. rewrite Ge, (bk_ed B _ Ge). reflexivity.
        + assert (K : In e (keys (edges n))) by (eapply get_Some_key; eauto). apply (bk_edges B) in K as (x & ls & I & Ie).
          rewrite <- (bk_nodes B') in I. unfold legs_list in I. apply in_map_iff in I as ([y v] & E0 & I). cbn [fst snd] in E0. inversion E0; subst x ls.
          unfold attachedb. apply existsb_exists. exists (y, e). rewrite eqb_refl. split; auto.
          change (In (y, e) (adj (with_arrays n (blanks n)))). apply (wf_adj (proj1 (bk_inv B'))). exists v. split; auto.
          apply In_get; auto. apply (wf_nodes (proj1 (bk_inv B'))).
        + unfold size, edim. cbn [copy_tn with_idc edges with_arrays]. rewrite Ge, (bk_ed B _ Ge). simpl. lia.
      - unfold order_okb. cbn [copy_tn with_idc nodes]. rewrite with_arrays_keys. auto.
      - left. intros e. cbn [copy_tn with_idc opens with_arrays]. rewrite (bk_opens B). intros []. }
    rewrite Ec. cbn [bind fst snd]. eexists. split; [reflexivity|]. constructor; [reflexivity|].
    rewrite Dl in Em. inversion Em; subst m. exists (copy_tn (with_arrays n (blanks n))), (s_split (sch cl)), path.
    split.
    { destruct B' as [B1 B2 B3 B4 B5]. constructor; auto. destruct B5 as [W C]. split; [destruct W; constructor; auto|exact C]. }
    cbn [pr_names pr_task pr_store]. split; [symmetry; apply with_arrays_keys|]. do 5 (split; auto). apply good_ready_state; auto.
  Qed.

  (** ** the value *)
  Lemma rounds_value cl ps k s j : 
    (prodf (item_at c p ps k s) (relabel_items (merge_turns (turns iter c cl p)) (all_items iter c cl j)) * cost_at c cl p ps k s)%K
    = upto iter c cl p ps k j s.
  Proof.
    induction j as [|j IH]; cbn [upto].
    - unfold all_items. cbn [seq map concat relabel_items prodf]. ring.
    - rewrite <- IH, <- (@round_value iter c iter_perm valid cl p ps k). unfold all_items. rewrite seq_S, map_app, concat_app. cbn [Nat.add map concat].
      rewrite app_nil_r. unfold relabel_items. rewrite map_app, prodf_app. ring.
  Qed.

  Lemma nth_combine' {X Y} (l : list X) (m : list Y) i a b : length l = length m -> nth i (combine l m) (a, b) = (nth i l a, nth i m b).
  Proof. apply combine_nth. Qed.
  Lemma lay_rev ps : length ps = 2 * p -> lay p ps p = rev (combine (firstn p ps) (skipn p ps)).
  Proof.
    intros Ln. assert (L1 : length (firstn p ps) = p) by (rewrite firstn_length; lia).
    assert (L2 : length (skipn p ps) = p) by (rewrite skipn_length; lia).
    assert (L3 : length (combine (firstn p ps) (skipn p ps)) = p) by (rewrite combine_length; lia).
    apply nth_ext with (d := (beta p ps 0, gamma p ps 0)) (d' := (0%R, 0%R)).
    - unfold lay. rewrite map_length, seq_length, rev_length. auto.
    - intros i Li. unfold lay in Li. rewrite map_length, seq_length in Li.
      rewrite rev_nth by lia. rewrite L3, combine_nth by lia. unfold lay.
      rewrite (map_nth (fun j => (beta p ps j, gamma p ps j)) (seq 0 p) 0 i), seq_nth by auto.
      unfold beta, gamma, from_end, betas, gammas. rewrite L1, L2. reflexivity.
  Qed.

  Theorem items_value {T} (m : tn T) cl t ps : length ps = 2 * p -> In (cl, t) c -> blank m (items cl) (Some 2) ->
    value (with_arrays m (arrays_of m (node_data c p ps (length (cone c cl p))))) [] =
    clause_energy c (rev (combine (firstn p ps) (skipn p ps))) (cl, t).
  Proof.
    intros Ln I B. rewrite (@arrays_value T m (items cl) B _ (below iter c cl p (Datatypes.S p))).
    - cbn [below]. unfold two. rewrite map_app. fold (two (names iter c cl p p)). fold (two (below iter c cl p p)). rewrite esum_app.
      unfold clause_energy. rewrite <- lay_rev by auto. cbn [fst].
      replace (length (lay p ps p)) with p by (unfold lay; rewrite map_length, seq_length; auto).
      rewrite <- (@cone_value iter c iter_perm valid cl p ps (length (cone c cl p)) t I).
      apply esum_ext_all. intros s. unfold inner. apply esum_ext_all. intros s'.
      rewrite <- rounds_value. unfold final_items. rewrite prodf_app. cbn [prodf]. rewrite kmul_1_r. reflexivity.
    - apply below_NoDup; auto.
    - intros e. symmetry. apply final_legs; auto.
  Qed.

  Lemma query_clause_ok cl t ps a : length ps = 2 * p -> In (cl, t) c -> prep_ok cl a ->
    exists a', query_clause c p ps a = Ok (clause_energy c (rev (combine (firstn p ps) (skipn p ps))) (cl, t), a') /\ prep_ok cl a'.
  Proof.
    intros Ln I [Sz (m & split & path & B & Nm & R & Gs & PO & MO & Tk & Rs)].
    assert (Icl : In cl (map fst c)) by (apply (in_map fst) in I; exact I).
    unfold query_clause. rewrite Nm, Sz, Tk. fold (arrays_of m (node_data c p ps (length (cone c cl p)))).
    set (d := arrays_of m (node_data c p ps (length (cone c cl p)))).
    assert (F : fits_net m d).
    { unfold d. eapply fits_arrays; eauto. intros x ls Ix. apply (@item_shape cl); auto. }
    assert (B' := with_arrays_blank B d). assert (R' := with_arrays_ready R F).
    assert (Cmp : comparable (keys (nodes m))) by (rewrite (keys_legs B); apply items_comparable; auto).
    assert (Rs' := @set_data_ready CK (nd CK) Ok m split (pr_store a) d R F (or_introl Cmp) (gd_cells Rs)).
    assert (PO' : path_ok (with_arrays m d) path).
    { unfold path_ok in *. destruct path as [pp|]; auto. simpl. rewrite map_length. auto. }
    destruct (@execute_ready_state CK (nd CK) Ok (with_arrays m d) split path (set_data d (pr_store a)) R' (with_arrays_slices d Gs) PO' Rs' MO)
      as (r & st' & E & Rs2 & Sh & V).
    rewrite (with_arrays_task path R F Gs) in E. rewrite E. cbn [bind fst snd]. eexists. split.
    - f_equal. f_equal.
      rewrite (V (@nd_at CK)); [|intros t0 b Q idx _; inversion Q; auto|cbn [with_arrays opens]; rewrite (bk_opens B); reflexivity].
      rewrite prune_same; [|apply (proj1 (bk_inv B'))|eapply blank_no_idle; eauto].
      apply (@items_value _ m cl t ps); auto.
    - constructor; [reflexivity|]. exists (with_arrays m d), split, path. cbn [pr_names pr_task pr_store pr_size].
      split; auto. split; [symmetry; apply with_arrays_keys|]. split; auto. split; [apply with_arrays_slices; auto|]. split; auto.
      split; auto. split; auto. symmetry. apply with_arrays_task with Ok; auto.
  Qed.

  Lemma preprocess_ok sch cls : incl cls (map fst c) ->
    (forall cl n k, In cl cls -> clause_net iter c p cl = Ok (n, k) -> scheme_ok n (sch cl)) ->
    exists l, preprocess iter c p sch cls = Ok l /\ Forall2 prep_ok cls l.
  Proof.
    induction cls as [|cl r IH]; intros Ic Hs.
    - exists []. split; [reflexivity|constructor].
    - destruct (@preprocess_clause_ok sch cl) as (a & E & P); [apply Ic; simpl; auto|intros; eapply Hs; simpl; eauto|].
      destruct IH as (l & El & Pl); [intros x Ix; apply Ic; simpl; auto|intros; eapply Hs; simpl; eauto|].
      exists (a :: l). cbn [preprocess]. rewrite E. cbn [bind]. rewrite El. split; [reflexivity|constructor; auto].
  Qed.
  Lemma query_ok ps c' : length ps = 2 * p -> incl c' c -> forall l, Forall2 prep_ok (map fst c') l ->
    exists l', query c p ps l = Ok (sumf (clause_energy c (rev (combine (firstn p ps) (skipn p ps)))) c', l') /\ Forall2 prep_ok (map fst c') l'.
  Proof.
    intros Ln. induction c' as [|[cl t] r IH]; intros Ic l F; inversion F as [|? a ? m P F']; subst.
    - exists []. split; [reflexivity|constructor].
    - destruct (@query_clause_ok cl t ps a) as (a' & E & P'); auto; [apply Ic; simpl; auto|].
      destruct (IH (fun x Ix => Ic x (or_intror Ix)) m F') as (m' & Em & Pm).
      exists (a' :: m'). cbn [query]. rewrite E. cbn [bind]. rewrite Em. cbn [bind fst snd sumf]. split; [reflexivity|constructor; auto].
  Qed.
  Theorem queries_ok cls sch pss : Permutation cls (map fst c) ->
    (forall cl n k, In cl cls -> clause_net iter c p cl = Ok (n, k) -> scheme_ok n (sch cl)) ->
    (forall ps, In ps pss -> length ps = 2 * p) ->
    exists l, preprocess iter c p sch cls = Ok l /\
      queries c p pss l = Ok (map (fun ps => energy c (combine (firstn p ps) (skipn p ps))) pss).
  Proof.
    intros Pm Hs Hp. destruct (Permutation_map_inv fst c Pm) as (c' & -> & Pc).
    destruct (@preprocess_ok sch (map fst c')) as (l & E & F); auto.
    { intros x Ix. eapply Permutation_in; eauto. }
    exists l. split; auto. clear E. revert l F. induction pss as [|ps r IH]; intros l F; [reflexivity|].
    destruct (@query_ok ps c') with (l := l) as (l' & E & F'); auto; [apply Hp; simpl; auto|intros x Ix; eapply Permutation_in; [symmetry; eauto|auto]|].
    cbn [queries]. rewrite E. cbn [bind fst snd]. rewrite IH; auto; [|intros; apply Hp; simpl; auto]. cbn [bind map]. rewrite energy_cone.
    rewrite (sumf_perm _ Pc). reflexivity.
  Qed.
End Task.
