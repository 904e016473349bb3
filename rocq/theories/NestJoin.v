(** Joining the wires of an expanded node: connected components and repeated merges. *)
From Verif Require Import Base Scalar NetSpec Sums NetAlg ModelArray ModelTN TNInv TNOps TNSpec TNMerge TNDelta TNValue
  TNValue2 TNExact ModelVal OpsProofs ModelNest NestSpec NestSub NestEnc.
Set Implicit Arguments.

(** ** connected components *)
Section Comps.
  Notation hit a b := (fun c : list name => mem a c || mem b c).
  Lemma hit_true a b (c : list name) : mem a c || mem b c = true <-> In a c \/ In b c.
  Proof. rewrite orb_true_iff, !mem_In. tauto. Qed.
  Lemma hit_false a b (c : list name) : mem a c || mem b c = false <-> ~ In a c /\ ~ In b c.
  Proof. rewrite orb_false_iff, !mem_false_iff. tauto. Qed.

  Lemma put_pair_In a b cs e : In e (concat (put_pair a b cs)) <-> e = a \/ e = b \/ In e (concat cs).
  Proof.
    induction cs as [|c r IH].
    - cbn [put_pair concat]. rewrite app_nil_r, dedup_In. simpl. intuition.
    - cbn [put_pair]. destruct (mem a c || mem b c) eqn:H.
      + cbn [concat]. rewrite !in_app_iff, dedup_In. simpl. rewrite in_app_iff.
        assert (F : In e (concat r) <-> In e (concat (filter (hit a b) r)) \/ In e (concat (filter (fun c => negb (hit a b c)) r))).
        { rewrite <- in_app_iff, <- concat_app, !in_concat.
          split; intros (l & I & J); exists l; split; auto.
          - eapply Permutation_in; [apply filter_perm_split|auto].
          - eapply Permutation_in; [symmetry; apply (filter_perm_split (hit a b))|auto]. }
        rewrite F. intuition.
      + cbn [concat]. rewrite !in_app_iff, IH. intuition.
  Qed.
  Lemma concat_filter_incl (f : list name -> bool) cs e : In e (concat (filter f cs)) -> In e (concat cs).
  Proof. rewrite !in_concat. intros (l & I & J). apply filter_In in I as [I _]. eauto. Qed.
  Lemma concat_filter_NoDup (f : list name -> bool) cs : NoDup (concat cs) -> NoDup (concat (filter f cs)).
  Proof.
    induction cs as [|c r IH]; simpl; intros ND; [constructor|]. apply NoDup_app_iff in ND as (A & B & C).
    destruct (f c); simpl; auto. apply NoDup_app_iff. split; auto. split; auto.
    intros e I J. apply (C e I). eapply concat_filter_incl; eauto.
  Qed.
  Lemma put_pair_NoDup a b cs : NoDup (concat cs) -> NoDup (concat (put_pair a b cs)).
  Proof.
    induction cs as [|c r IH]; intros ND.
    - cbn [put_pair concat]. rewrite app_nil_r. apply dedup_NoDup.
    - simpl in ND. apply NoDup_app_iff in ND as (A & B & C). cbn [put_pair]. destruct (mem a c || mem b c) eqn:H; cbn [concat].
      + apply NoDup_app_iff. split; [apply dedup_NoDup|]. split; [apply concat_filter_NoDup; auto|].
        intros e I J. apply (proj1 (dedup_In _ _)) in I. simpl in I. apply in_concat in J as (l & Il & Jl). apply filter_In in Il as [Il Nl].
        apply negb_true_iff, hit_false in Nl. destruct I as [<-|[<-|I]]; [tauto|tauto|]. apply in_app_iff in I as [I|I].
        * apply (C e I). apply in_concat. eauto.
        * apply in_concat in I as (l' & Il' & Jl'). apply filter_In in Il' as [Il' Hl']. 
          assert (l = l'); [|subst; apply hit_true in Hl'; tauto].
          clear -B Il Jl Il' Jl'. induction r as [|c r IH]; [destruct Il|]. simpl in B. apply NoDup_app_iff in B as (B1 & B2 & B3).
          destruct Il as [->|Il], Il' as [->|Il']; auto; exfalso.
          -- apply (B3 e Jl). apply in_concat; eauto.
          -- apply (B3 e Jl'). apply in_concat; eauto.
      + apply NoDup_app_iff. split; auto. split; auto. intros e I J. apply put_pair_In in J as [->|[->|J]].
        * apply hit_false in H. tauto.
        * apply hit_false in H. tauto.
        * apply (C e I J).
  Qed.
  (** a function is constant on the components iff it is on the pairs *)
  Definition const_on {X} (h : name -> X) (c : list name) : Prop := forall u v, In u c -> In v c -> h u = h v.
  Lemma put_pair_const {X} (h : name -> X) a b cs :
    (forall c, In c (put_pair a b cs) -> const_on h c) <-> h a = h b /\ forall c, In c cs -> const_on h c.
  Proof.
    induction cs as [|c r IH].
    - cbn [put_pair]. split.
      + intros H. split; [|intros ? []]. apply (H _ (or_introl eq_refl)); apply dedup_In; simpl; auto.
      + intros [E _] c [<-|[]] u v Iu Iv. apply (proj1 (dedup_In _ _)) in Iu, Iv. simpl in Iu, Iv.
        destruct Iu as [<-|[<-|[]]], Iv as [<-|[<-|[]]]; auto.
    - cbn [put_pair]. destruct (mem a c || mem b c) eqn:H.
      + set (c' := dedup (a :: b :: c ++ concat (filter (hit a b) r))).
        assert (Ic : forall u, In u c' <-> u = a \/ u = b \/ In u c \/ In u (concat (filter (hit a b) r))).
        { intros u. unfold c'. rewrite dedup_In. simpl. rewrite in_app_iff. intuition. }
        split.
        * intros F. pose proof (F c' (or_introl eq_refl)) as F'. split; [apply F'; apply Ic; auto|].
          intros q [<-|Iq] u v Iu Iv; [apply F'; apply Ic; auto|].
          destruct (mem a q || mem b q) eqn:Hq.
          -- assert (In q (filter (hit a b) r)) by (apply filter_In; auto).
             apply F'; apply Ic; right; right; right; apply in_concat; eauto.
          -- apply (F q); auto. right. apply filter_In. rewrite Hq. auto.
        * intros [E F] q [<-|Iq]; [|apply filter_In in Iq as [Iq _]; apply F; simpl; auto].
          assert (K : forall u, In u c' -> h u = h a).
          { intros u Iu. apply Ic in Iu as [->|[->|[Iu|Iu]]]; auto.
            - apply hit_true in H as [H|H]; [|rewrite E]; apply (F c); simpl; auto.
            - apply in_concat in Iu as (l & Il & Iu). apply filter_In in Il as [Il Hl].
              apply hit_true in Hl as [Hl|Hl]; [|rewrite E]; apply (F l); simpl; auto. }
          intros u v Iu Iv. rewrite (K u Iu), (K v Iv). auto.
      + split.
        * intros F. assert (G : forall q, In q (put_pair a b r) -> const_on h q) by (intros q Iq; apply F; simpl; auto).
          apply IH in G as [E G]. split; auto. intros q [<-|Iq]; auto. apply F; simpl; auto.
        * intros [E F] q [<-|Iq]; [apply F; simpl; auto|]. apply IH; auto. split; auto. intros; apply F; simpl; auto.
  Qed.

  Lemma components_gen ps : forall cs, NoDup (concat cs) ->
    let r := fold_left (fun cs p => put_pair (fst p) (snd p) cs) ps cs in
    NoDup (concat r) /\
    (forall e, In e (concat r) <-> In e (concat cs) \/ exists p, In p ps /\ (e = fst p \/ e = snd p)) /\
    (forall X (h : name -> X), (forall c, In c r -> const_on h c) <->
       (forall c, In c cs -> const_on h c) /\ forall p, In p ps -> h (fst p) = h (snd p)).
  Proof.
    induction ps as [|[a b] ps IH]; intros cs ND; simpl.
    - split; auto. split; [intros e; split; [auto|intros [H|(p & [] & _)]; auto]|]. intros X h. split; [split; auto; intros ? []|tauto].
    - destruct (IH (put_pair a b cs)) as (A & B & C); [apply put_pair_NoDup; auto|]. split; auto. split.
      + intros e. rewrite B, put_pair_In. split.
        * intros [[->|[->|I]]|(p & I & E)]; [right; exists (a, b); auto|right; exists (a, b); auto|auto|right; exists p; auto].
        * intros [I|(p & [<-|I] & E)]; auto; [simpl in E; tauto|right; exists p; auto].
      + intros X h. rewrite C, put_pair_const. split.
        * intros [[E F] G]. split; auto. intros p [<-|I]; auto.
        * intros [F G]. split; [split; auto; apply (G (a, b)); auto|auto].
  Qed.

  Lemma components_spec ps :
    NoDup (concat (components ps)) /\
    (forall e, In e (concat (components ps)) <-> exists p, In p ps /\ (e = fst p \/ e = snd p)) /\
    (forall X (h : name -> X), (forall c, In c (components ps) -> const_on h c) <-> forall p, In p ps -> h (fst p) = h (snd p)).
  Proof.
    destruct (@components_gen ps []) as (A & B & C); [constructor|]. fold (components ps) in *. split; auto. split.
    - intros e. rewrite B. simpl. tauto.
    - intros X h. rewrite C. split; [tauto|]. intros H. split; auto. intros c [].
  Qed.
  (** every component has the first end of a pair *)
  Lemma put_pair_has (P : name -> Prop) a b cs : P a -> (forall c, In c cs -> exists e, In e c /\ P e) ->
    forall c, In c (put_pair a b cs) -> exists e, In e c /\ P e.
  Proof.
    intros Pa. induction cs as [|q r IH]; intros H c I.
    - cbn [put_pair] in I. destruct I as [<-|[]]. exists a. split; auto. apply dedup_In; simpl; auto.
    - cbn [put_pair] in I. destruct (mem a q || mem b q).
      + destruct I as [<-|I]; [exists a; split; auto; apply dedup_In; simpl; auto|].
        apply filter_In in I as [I _]. apply H; simpl; auto.
      + destruct I as [<-|I]; [apply H; simpl; auto|]. apply IH; auto. intros; apply H; simpl; auto.
  Qed.
  Lemma components_has (P : name -> Prop) ps : (forall p, In p ps -> P (fst p)) ->
    forall c, In c (components ps) -> exists e, In e c /\ P e.
  Proof.
    intros H. unfold components.
    assert (G : forall ps cs, (forall p, In p ps -> P (fst p)) -> (forall c, In c cs -> exists e, In e c /\ P e) ->
      forall c, In c (fold_left (fun cs p => put_pair (fst p) (snd p) cs) ps cs) -> exists e, In e c /\ P e).
    { clear. induction ps as [|p ps IH]; intros cs Hp Hc; simpl; auto. apply IH; [intros; apply Hp; simpl; auto|].
      apply put_pair_has; auto. apply Hp; simpl; auto. }
    apply G; auto. intros c [].
  Qed.
End Comps.

(** ** merging succeeds *)
Section Total.
  Context {T : Type} `{PT : Payload T}.
  Notation net := (tn T).
  Implicit Types (n : net) (m e : name).

  Lemma last_dim_ok D : forall es n d, (forall e, In e es -> edim n e = Some D) -> incl es (keys (edges n)) -> es <> [] \/ d = Some D ->
    last_dim es d n = (n, Ok (Some D)).
  Proof.
    induction es as [|e es IH]; intros n d H I Q; cbn [last_dim].
    - destruct Q as [Q| ->]; [congruence|]. reflexivity.
    - unfold mbind, getst. specialize (H e (or_introl eq_refl)) as He. unfold edim in He.
      destruct (get e (edges n)) as [ed|]; [|discriminate]. rewrite He. apply IH; auto.
      + intros a Ia. apply H; simpl; auto.
      + intros a Ia. apply I; simpl; auto.
  Qed.

  Lemma merge_loop_ok m D : forall es n, NoDup es -> In m (keys (edges n)) -> edim n m = Some D -> incl es (keys (edges n)) ->
    (forall e ed fx, get e (edges n) = Some ed -> e_fix ed = Some fx -> In e es -> Forall (fun v => v < D) fx) ->
    exists n', foreach (merge1 m) es n = (n', Ok tt).
  Proof.
    induction es as [|e es IH]; intros n ND Im Dm I Fx; cbn [foreach]; [eexists; reflexivity|].
    inversion ND as [|? ? Ne ND']; subst.
    destruct (key_get _ _ (I e (or_introl eq_refl))) as [ed Ge].
    assert (exists n1, merge1 m e n = (n1, Ok tt)) as (n1 & E1).
    { unfold merge1, mbind at 1, getst. rewrite Ge.
      assert (exists n2, match e_fix ed with Some fx => fix_edge m fx false | None => ret tt end n = (n2, Ok tt)) as (n2 & E2).
      { destruct (e_fix ed) as [fx|] eqn:F; [|eexists; reflexivity]. unfold fix_edge, mbind, getst.
        unfold edim in Dm. destruct (get m (edges n)) as [edm|]; [|discriminate]. rewrite Dm.
        assert (Q : forallb (fun v => v <? D) fx = true).
        { apply forallb_forall. intros v Iv. specialize (Fx e ed fx Ge F (or_introl eq_refl)). rewrite Forall_forall in Fx.
          apply Nat.ltb_lt. auto. }
        rewrite Q. destruct (e_fix edm); eexists; reflexivity. }
      unfold mbind at 1. rewrite E2. unfold mbind at 1, modify at 1. destruct (eqb e m); eexists; reflexivity. }
    assert (Sp : step_spec m e n n1) by (eapply merge1_spec; eauto).
    destruct (IH n1) as (n' & E'); auto.
    - apply (st_keys Sp). auto.
    - destruct (key_get _ _ Im) as [edm Gm]. destruct (st_m Sp Gm) as (edm' & G' & D' & _).
      unfold edim in *. rewrite G', D'. rewrite Gm in Dm. auto.
    - intros a Ia. apply (st_keys Sp). split; [apply I; simpl; auto|]. right. intros ->. auto.
    - intros a ed' fx Ga F Ia. destruct (eq_dec_of_eqb a m) as [->|Nm].
      + destruct (key_get _ _ Im) as [edm Gm]. destruct (st_m Sp Gm) as (edm' & G' & D' & V' & F').
        rewrite G' in Ga. injection Ga as <-. rewrite F in F'. destruct F' as [F'|(d & Dd & F')].
        * eapply Fx; [exact Gm|congruence|simpl; auto].
        * injection F' as ->. rewrite Forall_forall. intros v Iv. apply filter_In in Iv as [Iv _].
          unfold edge_values in Iv. destruct (e_fix edm) as [f0|] eqn:F0.
          -- assert (Q : Forall (fun v => v < D) f0) by (eapply Fx; [exact Gm|auto|simpl; auto]).
             rewrite Forall_forall in Q. auto.
          -- unfold edim in Dm. rewrite Gm in Dm. rewrite Dm in Iv. apply in_seq in Iv. lia.
      + eapply Fx; [rewrite <- (st_get Sp); [exact Ga|auto|intros ->; auto]|exact F|simpl; auto].
    - exists n'. unfold mbind. rewrite E1. exact E'.
  Qed.

  Definition free_edge n e : Prop := forall ed, get e (edges n) = Some ed -> e_fix ed = None.
  Lemma merge_loop_free m : forall es n n', foreach (merge1 m) es n = (n', Ok tt) -> NoDup es ->
    (forall e, In e es -> e <> m -> free_edge n e) -> get m (edges n') = get m (edges n).
  Proof.
    induction es as [|e es IH]; intros n n' E ND Fr; cbn [foreach] in E; [injection E as <-; auto|].
    inversion ND as [|? ? Ne ND']; subst. unfold mbind at 1 in E. unfold merge1 at 1, mbind at 1, getst in E.
    destruct (get e (edges n)) as [ed|] eqn:G; [|discriminate]. 
    destruct (eqb e m) eqn:Q.
    - assert (e = m) as -> by (apply eqb_eq; auto). unfold mbind at 1 in E.
      destruct (e_fix ed) as [fx|] eqn:Fx.
      + unfold fix_edge at 1, mbind at 1, getst in E. rewrite G, Fx in E. destruct (e_dim ed) as [d|] eqn:Dd; [|discriminate].
        destruct (forallb (fun v => v <? d) fx); [|discriminate].
        assert (Qf : filter (fun v => mem v fx) fx = fx).
        { assert (Hf : forall l, incl l fx -> filter (fun v => mem v fx) l = l); [|apply Hf, incl_refl].
          induction l as [|v l IHl]; intros I; simpl; auto. rewrite (proj2 (mem_In v fx)) by (apply I; simpl; auto).
          f_equal. apply IHl. intros w Iw. apply I. simpl; auto. }
        rewrite Qf in E. unfold mbind at 1, modify at 1 2 in E. unfold ret at 1 in E.
        rewrite (IH _ n' E ND').
        * cbn [edges with_adj with_edges]. rewrite get_set_eq, G. destruct ed; simpl in *; congruence.
        * intros a Ia Na. unfold free_edge. cbn [edges with_adj with_edges]. intros ed'. rewrite get_set_neq by auto. apply (Fr a); simpl; auto.
      + unfold ret at 1, mbind at 1, modify at 1 in E. unfold ret at 1 in E. rewrite (IH _ n' E ND'); [reflexivity|].
        intros a Ia Na. apply (Fr a); simpl; auto.
    - assert (Nem : e <> m) by (apply eqb_neq; auto). rewrite (Fr e (or_introl eq_refl) Nem ed G) in E.
      unfold mbind at 1, ret at 1, mbind at 1, modify at 1 in E.
      set (n1 := with_adj n (add_adjs (adj n) (map (fun x => (x, m)) (adj_nodes n e)))) in *.
      unfold modify at 1 in E. 
      assert (Ge : forall a, a <> e -> get a (edges (graph_del_edge n1 e)) = get a (edges n)).
      { intros a Na. unfold graph_del_edge. cbn [edges]. apply get_del_neq; auto. }
      rewrite (IH _ n' E ND').
      + apply Ge. congruence.
      + intros a Ia Na ed' Ga. apply (Fr a); [simpl; auto|auto|]. rewrite <- Ge; auto. intros ->; auto.
  Qed.

  Definition efixed n e : bool := match get e (edges n) with Some ed => match e_fix ed with Some _ => true | None => false end | None => false end.
  Lemma fix_edge_fixes m fx n n' u : fix_edge m fx false n = (n', Ok u) ->
    efixed n' m = true /\ forall a, a <> m -> get a (edges n') = get a (edges n).
  Proof.
    unfold fix_edge, mbind at 1, getst. intros E. destruct (get m (edges n)) as [ed|] eqn:G; [|discriminate].
    destruct (e_dim ed) as [d|]; [|discriminate]. destruct (forallb (fun v => v <? d) fx); [|discriminate].
    destruct (e_fix ed) as [old|]; injection E as <- _; (split; [unfold efixed; cbn [edges with_edges]; rewrite get_set_eq; reflexivity|]);
      intros a Na; cbn [edges with_edges]; apply get_set_neq; auto.
  Qed.
  Lemma merge_loop_fixed m : forall es n n', foreach (merge1 m) es n = (n', Ok tt) -> NoDup es ->
    (efixed n m = true \/ exists e, In e es /\ efixed n e = true) -> efixed n' m = true.
  Proof.
    induction es as [|e es IH]; intros n n' E ND H; cbn [foreach] in E.
    - injection E as <-. destruct H as [H|(e & [] & _)]; auto.
    - inversion ND as [|? ? Ne ND']; subst. unfold mbind at 1 in E. unfold merge1 at 1, mbind at 1, getst in E.
      destruct (get e (edges n)) as [ed|] eqn:G; [|discriminate]. unfold mbind at 1 in E.
      set (k := match e_fix ed with Some fx => fix_edge m fx false | None => ret tt end) in E.
      destruct (k n) as [n1 [u|]] eqn:K; [|discriminate].
      assert (H1 : efixed n1 m = true \/ exists a, In a es /\ a <> e /\ efixed n1 a = true).
      { unfold k in K. destruct (e_fix ed) as [fx|] eqn:Fx.
        - left. eapply fix_edge_fixes; eauto.
        - injection K as <- _. destruct H as [H|(a & [<-|Ia] & Fa)]; auto.
          + unfold efixed in Fa. rewrite G, Fx in Fa. discriminate.
          + right. exists a. split; auto. split; auto. intros ->; auto. }
      unfold mbind at 1, modify at 1 in E.
      set (n2 := with_adj n1 (add_adjs (adj n1) (map (fun x => (x, m)) (adj_nodes n1 e)))) in *.
      assert (H2 : efixed n2 m = true \/ exists a, In a es /\ a <> e /\ efixed n2 a = true) by exact H1. clear H1 K.
      destruct (eqb e m) eqn:Q.
      + unfold ret at 1 in E. apply (IH _ _ E ND'). destruct H2 as [H2|(a & A & _ & B)]; eauto.
      + assert (Nem : e <> m) by (apply eqb_neq; auto). unfold modify at 1 in E. apply (IH _ _ E ND').
        assert (Ge : forall a, a <> e -> efixed (graph_del_edge n2 e) a = efixed n2 a).
        { intros a Na. unfold efixed. replace (get a (edges (graph_del_edge n2 e))) with (get a (edges n2)); [reflexivity|].
          unfold graph_del_edge. cbn [edges]. symmetry. apply get_del_neq; auto. }
        destruct H2 as [H2|(a & A & B & C)]; [left; rewrite Ge; auto|right; exists a; rewrite Ge; auto].
  Qed.

  Lemma merge_edges_ok es m D n : wf n -> NoDup es -> In m es -> m <> NN -> incl es (keys (edges n)) ->
    (forall e, In e es -> edim n e = Some D) -> exists n', merge_edges es m n = (n', Ok m) /\
      ((forall e, In e es -> e <> m -> free_edge n e) -> get m (edges n') = get m (edges n)) /\
      (forall e, In e es -> efixed n e = true -> efixed n' m = true).
  Proof.
    intros W ND Im Nm I HD.
    assert (Hm : has m (edges n) = true) by (apply has_In, I; auto).
    assert (U : update_dimension [(m, Some D)] n = (n, Ok tt)).
    { unfold update_dimension. simpl foreach. unfold mbind, update_dim1, getst, mbind. specialize (HD m Im). unfold edim in HD. simpl.
      destruct (get m (edges n)) as [ed|]; [|discriminate]. rewrite HD, Nat.eqb_refl. reflexivity. }
    destruct (@merge_loop_ok m D es n ND (I m Im) (HD m Im) I) as (n1 & L).
    { intros e ed fx G F Ie. destruct (wf_fix W _ G F) as (d & Dd & Q). specialize (HD e Ie). unfold edim in HD. rewrite G in HD.
      rewrite Dd in HD. injection HD as ->. auto. }
    pose proof (merge_loop _ _ _ (I m Im) L) as Sp.
    set (n2 := fold_left (merge_legs es m) (dedup (concat (map (adj_nodes n) es))) n1).
    assert (Hk : opens n2 = opens n1 /\ edges n2 = edges n1).
    { destruct (fold_map_legs (map (merge_label es m)) n1 (dedup_NoDup (concat (map (adj_nodes n) es)))) as (E1 & E2 & E3 & _).
      fold (merge_legs (T := T) es m) in *. auto. }
    set (n3 := with_opens n2 (map (merge_label es m) (opens n2))).
    exists n3. split; [|split; [intros Fr; rewrite <- (@merge_loop_free m es n n1 L ND Fr); unfold n3; cbn [edges with_opens]; rewrite (proj2 Hk); reflexivity|]].
    2:{ intros e Ie Fe. rewrite <- (@merge_loop_fixed m es n n1 L ND (or_intror (ex_intro _ e (conj Ie Fe)))). unfold efixed, n3.
        cbn [edges with_opens]. rewrite (proj2 Hk). reflexivity. }
    unfold merge_edges.
    unfold mbind at 1. rewrite (@last_dim_ok D es n None); auto; [|left; intros ->; destruct Im].
    assert (Em : match m with NN => lift (sorted_last es) | _ => let! n := getst in
                  if has m (edges n) then ret m else add_edge m None end n = (n, Ok m)).
    { destruct m; [congruence| | |]; unfold mbind, getst; rewrite Hm; reflexivity. }
    unfold mbind at 1. rewrite Em. unfold mbind at 1. rewrite U.
    unfold mbind at 1, getst at 1. unfold mbind at 1. rewrite L.
    unfold mbind at 1, modify at 1. fold n2. unfold mbind at 1, modify at 1. fold n3. unfold mbind, getst.
    assert (Q : forallb (fun e => has e (edges n3)) (opens n3) = true).
    { apply forallb_forall. intros a Ia. destruct Hk as [Ho He]. unfold n3 in *. cbn [opens edges with_opens] in *. rewrite He.
      apply in_map_iff in Ia as (b & <- & Ib). rewrite Ho, (lp_opens Sp) in Ib.
      apply has_In, (lp_keys Sp). unfold merge_label. destruct (mem_spec b es) as [J|J].
      - split; [apply I; auto|auto].
      - split; [apply (wf_opens W); auto|auto]. }
    rewrite Q. reflexivity.
  Qed.
End Total.

Section Joins.
  Context {S : scalar}.
  Add Ring KringNJ : (kring S).
  Notation tval := (tval S).
  Notation net := (tn tval).
  Notation pv := (@tval_value S).
  Notation value := (tn_value pv).
  Implicit Types (n : net) (m e : name).
  Variable ord : list name -> list name.
  Variable Hord : forall l, Permutation (ord l) l.
  Open Scope K_scope.

  Lemma merged_edim n es m n' D e : merged n es m n' -> In m es -> (forall e, In e es -> edim n e = Some D) ->
    In e (keys (edges n)) -> edim n' (merge_label es m e) = edim n e.
  Proof.
    intros Mg Im HD Ie. unfold merge_label. destruct (mem_spec e es) as [J|J].
    - rewrite (HD e J). destruct (mg_m Mg) as (em & em' & _ & A & B & C & _).
      unfold edim. rewrite B, C. apply A; [|intros ->; destruct Im].
      intros a ed Ia G. specialize (HD a Ia). unfold edim in HD. rewrite G in HD. auto.
    - unfold edim. rewrite (mg_get Mg); auto. intros ->; auto.
  Qed.
  Lemma merged_fix_nodup n es m n' : merged n es m n' -> fix_nodup n -> fix_nodup n'.
  Proof.
    intros Mg FN e ed fx G F. destruct (eq_dec_of_eqb e m) as [->|Nm].
    - destruct (mg_m Mg) as (em & em' & A & _ & B & _ & _ & C). rewrite G in B. injection B as <-.
      assert (NDm : forall f, e_fix em = Some f -> NoDup f).
      { intros f Q. destruct (get m (edges n)) as [ed0|] eqn:G0; [|congruence]. destruct A as [A _]. eapply FN; [exact G0|congruence]. }
      destruct C as [C|(d & Dd & C)]; [apply NDm; congruence|]. rewrite F in C. injection C as ->. apply NoDup_filter.
      unfold edge_values. destruct (e_fix em) eqn:Q; auto. rewrite Dd. apply seq_NoDup.
    - assert (Ne : ~ In e es). { intros J. apply get_Some_key in G. apply (mg_keys Mg) in G. tauto. }
      rewrite (mg_get Mg) in G by auto. eapply FN; eauto.
  Qed.
  (** if the fixed edges have the values [f] gives them, so do the merged ones *)
  Lemma merged_fixed_as n es m n' D f s : wf n -> fix_nodup n -> merged n es m n' -> In m es -> (forall e, In e es -> edim n e = Some D) ->
    ((forall e, In e es -> e <> m -> free_edge n e) -> get m (edges n') = get m (edges n)) ->
    (forall a b, In a es -> In b es -> f a = f b) -> fixed_as s f n -> fixed_as s f n'.
  Proof.
    intros W FN Mg Im HD Fr Hf H e ed fx G F Hs. destruct (eq_dec_of_eqb e m) as [->|Nm].
    2:{ assert (Ne : ~ In e es). { intros J. apply get_Some_key in G. apply (mg_keys Mg) in G. tauto. }
        rewrite (mg_get Mg) in G by auto. apply (H e ed); auto. destruct Hs as [Hs|Hs]; auto. right. intros J. apply Hs.
        rewrite (mg_opens Mg). apply in_map_iff. exists e. split; auto. unfold merge_label. rewrite (proj2 (mem_false_iff e es)); auto. }
    assert (Hes : forall a, In a es -> s = true \/ ~ In a (opens n)).
    { intros a Ia. destruct Hs as [Hs|Hs]; auto. right. intros J. apply Hs. rewrite (mg_opens Mg). apply in_map_iff. exists a. split; auto.
      unfold merge_label. rewrite (proj2 (mem_In a es)); auto. }
    destruct (get m (edges n)) as [em0|] eqn:Gm; [|apply get_None in Gm; exfalso; apply Gm, (mg_in Mg); auto].
    assert (Dm : e_dim em0 = Some D) by (specialize (HD m Im); unfold edim in HD; rewrite Gm in HD; auto).
    destruct (existsb (fun a => negb (eqb a m) && is_fixed n a) es) eqn:Ex.
    - apply existsb_exists in Ex as (a & Ia & Q). apply andb_true_iff in Q as [_ Fa].
      unfold is_fixed in Fa. destruct (get a (edges n)) as [ea|] eqn:Ga; [|discriminate]. destruct (e_fix ea) as [fa|] eqn:Qa; [|discriminate].
      assert (fa = [f m]) as ->. { rewrite (H a ea fa Ga Qa (Hes a Ia)). f_equal. apply Hf; auto. }
      destruct (mg_m Mg) as (em & em' & A & B & C & _ & _ & E). rewrite G in C. injection C as <-. rewrite Gm in A. destruct A as [A1 A2].
      destruct E as [E|(d & Dd & E)].
      + apply (H m em0); auto; congruence.
      + rewrite F in E. injection E as ->. assert (d = D) as -> by (specialize (A2 D Dm); congruence).
        assert (Ok1 : forall v, fix_ok n es v = true -> v = f m).
        { intros v Hv. unfold fix_ok in Hv. rewrite forallb_forall in Hv. specialize (Hv a Ia). rewrite Ga, Qa in Hv. apply mem_In in Hv as [Hv|[]]. auto. }
        assert (Ok2 : fix_ok n es (f m) = true).
        { unfold fix_ok. apply forallb_forall. intros b Ib. destruct (get b (edges n)) as [eb|] eqn:Gb; auto. destruct (e_fix eb) as [fb|] eqn:Qb; auto.
          rewrite (H b eb fb Gb Qb (Hes b Ib)). apply mem_In. left. apply Hf; auto. }
        assert (Inv : In (f m) (edge_values em)).
        { unfold edge_values. rewrite A1, Dd. destruct (e_fix em0) as [f0|] eqn:Q0.
          - rewrite (H m em0 f0 Gm Q0 (Hes m Im)). simpl; auto.
          - apply in_seq. destruct (wf_fix W _ Ga Qa) as (d' & Dd' & Fd). inversion Fd as [|? ? L _]; subst.
            specialize (HD a Ia). unfold edim in HD. rewrite Ga in HD. rewrite HD in Dd'. injection Dd' as <-. lia. }
        assert (NDv : NoDup (edge_values em)).
        { unfold edge_values. rewrite A1, Dd. destruct (e_fix em0) as [f0|] eqn:Q0; [exact (FN m em0 f0 Gm Q0)|apply seq_NoDup]. }
        clear -Ok1 Ok2 Inv NDv. assert (P : Permutation (filter (fix_ok n es) (edge_values em)) [f m]).
        { apply NoDup_Permutation; [apply NoDup_filter; auto|repeat constructor; intros []|]. intros v. rewrite filter_In. simpl. split.
          - intros [_ Q]. left. symmetry. auto.
          - intros [<-|[]]. auto. }
        apply Permutation_sym, Permutation_length_1_inv in P. auto.
    - assert (Q : get m (edges n') = Some em0).
      { rewrite Fr; auto. intros a Ia Na ed' Ga. assert (Q : negb (eqb a m) && is_fixed n a = false).
        { destruct (negb (eqb a m) && is_fixed n a) eqn:Q; auto. rewrite <- Ex. symmetry. apply existsb_exists. eauto. }
        rewrite (proj2 (eqb_neq a m) Na) in Q. unfold is_fixed in Q. rewrite Ga in Q. simpl in Q. destruct (e_fix ed'); auto. discriminate. }
      rewrite G in Q. injection Q as ->. apply (H m em0); auto.
  Qed.

  Lemma merged_regular n es m n' D : regular n -> merged n es m n' -> In m es -> (forall e, In e es -> edim n e = Some D) -> regular n'.
  Proof.
    intros [[W NNn] FN Sz Os] Mg Im HD. constructor.
    - split; [eapply merged_wf; eauto|]. intros J. apply (mg_keys Mg) in J as [<-|[J _]]; auto. apply NNn, (mg_in Mg); auto.
    - eapply merged_fix_nodup; eauto.
    - intros x nd' G'. pose proof (mg_nodes Mg x) as Q. rewrite G' in Q. destruct (get x (nodes n)) as [nd|] eqn:G; [|tauto].
      destruct Q as [Ql Qv]. destruct (Sz x nd G) as (t & Et & Sh & Kn). exists t. rewrite Qv, Ql. split; auto.
      assert (De : forall e, In e (n_legs nd) -> edim n' (merge_label es m e) = edim n e).
      { intros e Ie. eapply merged_edim; eauto. eapply (wf_legs W); eauto. }
      split.
      + rewrite Sh, map_map. f_equal. apply map_ext_in. intros e Ie. symmetry. auto.
      + intros e Ie. apply in_map_iff in Ie as (a & <- & Ia). rewrite De; auto.
    - intros e Ie. rewrite (mg_opens Mg) in Ie. apply in_map_iff in Ie as (a & <- & Ia).
      erewrite merged_edim; eauto. apply (wf_opens W); auto.
  Qed.

  Lemma sorted_last_ok (l : list name) : l <> [] -> (forall a b, In a l -> In b l -> exists r, name_lt a b = Ok r) ->
    exists t, sorted_last l = Ok t /\ In t l.
  Proof.
    intros Nl H. assert (exists t, sorted_last l = Ok t) as (t & E).
    { destruct l as [|a l]; [congruence|]. simpl. clear Nl. revert a H. induction l as [|b l IH]; intros a H; simpl; eauto.
      destruct (H a b) as (r & ->); simpl; auto. apply IH. intros c d Ic Id. apply H.
      - destruct r, Ic; simpl; auto.
      - destruct r, Id; simpl; auto. }
    exists t. split; auto. apply (sorted_last_In _ E).
  Qed.

  Lemma all_same_perm s (l l' : list name) : (forall a, In a l <-> In a l') -> all_same s l = all_same s l'.
  Proof.
    intros E. apply eq_true_iff_eq. rewrite !all_same_spec. split; intros Q a b Ia Ib; apply Q; apply E; auto.
  Qed.
  Lemma forallb_same_depends (cs : list (list name)) :
    depends_on (concat cs) (fun s => kdelta (forallb (all_same s) cs) : S).
  Proof.
    intros s1 s2 E. f_equal. induction cs as [|c cs IH]; simpl; auto. rewrite IH; [|intros a Ia; apply E; simpl; apply in_app_iff; auto].
    f_equal. apply eq_true_iff_eq. rewrite !all_same_spec.
    assert (Ec : forall a, In a c -> s1 a = s2 a) by (intros a Ia; apply E; simpl; apply in_app_iff; auto).
    split; intros Q a b Ia Ib; [rewrite <- !Ec by auto|rewrite !Ec by auto]; auto.
  Qed.

  Lemma joins_ok conn : forall cs n,
    (forall c a b, In c cs -> In a c -> In b c -> In a conn -> In b conn -> exists r, name_lt a b = Ok r) -> regular n -> NoDup (concat cs) -> incl (concat cs) (keys (edges n)) ->
    (forall c, In c cs -> exists D, forall e, In e c -> edim n e = Some D) ->
    (forall c, In c cs -> exists e, In e c /\ In e conn) ->
    exists n' r, foreach (join ord conn) cs n = (n', Ok tt) /\ regular n' /\
      (forall o, value n' o = esum (tn_dom n) (fun s => kdelta (forallb (all_same s) cs) * summand pv n o s) env0) /\
      keys (nodes n') = keys (nodes n) /\
      (forall x, option_map content (get x (nodes n')) = option_map (fun nd => (map r (n_legs nd), n_val nd)) (get x (nodes n))) /\
      opens n' = map r (opens n) /\
      (forall e, In e (keys (edges n')) -> In e (keys (edges n))) /\
      (forall e, In e (keys (edges n)) -> edim n' (r e) = edim n e) /\
      (forall e, r e = e \/ exists c, In c cs /\ In e c /\ In (r e) c /\ In (r e) conn) /\
      (forall c a b, In c cs -> In a c -> In b c -> r a = r b) /\
      (forall e, In e (keys (edges n')) -> r e = e) /\
      ((forall c e, In c cs -> In e c -> free_edge n e \/ forall a, In a c -> In a conn -> a = e) ->
       forall e ed, get e (edges n') = Some ed -> exists ed0, get e (edges n) = Some ed0 /\ e_fix ed = e_fix ed0) /\
      (forall f s, (forall c a b, In c cs -> In a c -> In b c -> f a = f b) -> fixed_as s f n -> fixed_as s f n') /\
      (forall e, In e (keys (edges n)) -> is_fixed n e = true -> is_fixed n' (r e) = true).
  Proof.
    induction cs as [|c cs IH]; intros n Cmp R ND I HD Hc.
    - exists n, (fun e => e). split; [reflexivity|]. split; auto. split; [|split; [|split; [|split; [|split; [|split; [|split; [|split; [|split; [|split]]]]]]]]]; auto.
      + intros o. rewrite value_summand. apply esum_ext_all. intros s. simpl. ring.
      + intros x. destruct (get x (nodes n)); simpl; auto. unfold content. rewrite map_id. auto.
      + rewrite map_id; auto.
      + intros c a b [].
      + intros _ e ed G. eauto.
    - simpl in ND. apply NoDup_app_iff in ND as (ND1 & ND2 & Dj).
      destruct (HD c (or_introl eq_refl)) as (D & Dc).
      destruct (@sorted_last_ok (ord (filter (fun e => mem e conn) c))) as (t & Et & It).
      { destruct (Hc c (or_introl eq_refl)) as (e & Ie & Ic). intros Q.
        assert (J : In e (ord (filter (fun e => mem e conn) c))) by (apply (ord_In ord Hord), filter_In; split; auto; apply mem_In; auto).
        rewrite Q in J. destruct J. }
      { intros a b Ia Ib. apply (proj1 (ord_In ord Hord _ _)), filter_In in Ia as [Ka Ia], Ib as [Kb Ib].
        apply (Cmp c); simpl; auto; apply mem_In; auto. }
      apply (proj1 (ord_In ord Hord _ _)), filter_In in It as [Itc Itn]. apply mem_In in Itn.
      assert (Ko : forall a, In a (ord c) <-> In a c) by (intros a; apply (ord_In ord Hord)).
      assert (Dco : forall e, In e (ord c) -> edim n e = Some D) by (intros e Ie; apply Dc, Ko; auto).
      destruct (@merge_edges_ok _ (ord c) t D n) as (n1 & E1 & Fr1 & Fx1).
      { apply R. } { apply (ord_NoDup ord Hord); auto. } { apply Ko; auto. }
      { intros ->. apply (proj2 (rg_inv R)). apply I. simpl. apply in_app_iff; auto. }
      { intros a Ia. apply I. simpl. apply in_app_iff; left. apply Ko; auto. }
      { auto. }
      destruct (merge_edges_spec _ _ (proj1 (rg_inv R)) E1) as (Mg & _ & _).
      assert (R1 : regular n1) by (apply (merged_regular R Mg (D := D)); auto; apply Ko; auto).
      assert (Lid : forall e, ~ In e c -> merge_label (ord c) t e = e).
      { intros e Ne. unfold merge_label. destruct (mem_spec e (ord c)) as [J|J]; auto. exfalso. apply Ne, Ko; auto. }
      assert (Dl : forall e, In e (keys (edges n)) -> edim n1 (merge_label (ord c) t e) = edim n e).
      { intros e Ie. eapply merged_edim; eauto. apply Ko; auto. }
      assert (Ncs : forall e, In e (concat cs) -> ~ In e c) by (intros e Ie Q; apply (Dj e Q Ie)).
      destruct (IH n1) as (n' & r & E' & R' & V' & K' & C' & O' & Ed' & D' & L' & T' & P' & X' & Y1 & Y2).
      { intros q a b Iq. apply Cmp; simpl; auto. }
      { exact R1. } { exact ND2. }
      { intros e Ie. apply (mg_keys Mg). right. split; [apply I; simpl; apply in_app_iff; auto|]. rewrite Ko. auto. }
      { intros q Iq. destruct (HD q (or_intror Iq)) as (Dq & Hq). exists Dq. intros e Ie.
        assert (Ie' : In e (concat cs)) by (apply in_concat; eauto).
        rewrite <- (Hq e Ie). rewrite <- (Lid e (Ncs e Ie')) at 1. apply Dl. apply I; simpl; apply in_app_iff; auto. }
      { intros q Iq. apply Hc; simpl; auto. }
      exists n', (fun e => r (merge_label (ord c) t e)). 
        repeat match goal with |- _ /\ _ => split end; auto.
      + cbn [foreach]. unfold mbind at 1. unfold join at 1. unfold mbind at 1, lift. rewrite Et. unfold mbind at 1. rewrite E1. exact E'.
      + intros o. rewrite V'.
        rewrite (@value_merged_with _ _ pv n (ord c) t n1 D o (concat cs) (fun s => kdelta (forallb (all_same s) cs))); auto.
        * apply esum_ext_all. intros s.
          assert (Q : all_same s (merge_group n (ord c) t) = all_same s c).
          { apply all_same_perm. intros a. unfold merge_group. destruct (has t (edges n)); simpl; rewrite Ko; intuition congruence. }
          rewrite Q. cbn [forallb]. rewrite kdelta_and. ring.
        * apply R.
        * apply R.
        * intros Q. assert (J : In t (ord c)) by (apply Ko; auto). rewrite Q in J. destruct J.
        * intros e ed Ie G. assert (J : In e (ord c)).
          { unfold merge_group in Ie. destruct (has t (edges n)); auto. destruct Ie as [<-|Ie]; auto. apply Ko; auto. }
          specialize (Dco e J). unfold edim in Dco. rewrite G in Dco. auto.
        * apply forallb_same_depends.
        * intros e Ie J. apply (Ncs e J). destruct Ie as [<-|Ie]; auto. apply Ko; auto.
      + rewrite K'. apply (mg_node_keys Mg).
      + intros x. rewrite C'. pose proof (mg_nodes Mg x) as Q. destruct (get x (nodes n)) as [nd|], (get x (nodes n1)) as [nd'|]; try tauto; auto.
        destruct Q as [Ql Qv]. simpl. rewrite Ql, Qv, map_map. auto.
      + rewrite O', (mg_opens Mg), map_map. auto.
      + intros e Ie. apply Ed' in Ie. apply (mg_keys Mg) in Ie as [->|[J _]]; auto. apply I. simpl. apply in_app_iff; auto.
      + intros e Ie. rewrite D'; [apply Dl; auto|]. apply (mg_keys Mg). unfold merge_label. destruct (mem_spec e (ord c)) as [J|J]; auto.
      + intros e. destruct (in_dec (@eq_dec_of_eqb name _) e c) as [Ie|Ne].
        * right. exists c. assert (Q : merge_label (ord c) t e = t).
          { unfold merge_label. destruct (mem_spec e (ord c)) as [J|J]; auto. exfalso. apply J, Ko; auto. }
          rewrite Q. destruct (L' t) as [->|(q & Iq & J & _)]; [simpl; auto|]. exfalso. apply (Dj t Itc). apply in_concat. eauto.
        * rewrite (Lid e Ne). destruct (L' e) as [->|(q & Iq & J)]; auto. right. exists q. simpl. tauto.
      + intros q a b [<-|Iq] Ia Ib.
        * f_equal. unfold merge_label. rewrite (proj2 (mem_In a (ord c))), (proj2 (mem_In b (ord c))) by (apply Ko; auto). auto.
        * rewrite (Lid a), (Lid b) by (apply Ncs, in_concat; eauto). eapply T'; eauto.
      + intros e Ie. assert (J := Ie). apply Ed' in J. apply (mg_keys Mg) in J as [->|[_ J]].
        * assert (Q : merge_label (ord c) t t = t) by (unfold merge_label; destruct (mem t (ord c)); auto). rewrite Q. auto.
        * rewrite Lid by (rewrite <- Ko; auto). auto.
      + intros Fr e ed G. destruct (X') with (e := e) (ed := ed) as (ed1 & G1 & ->); auto.
        * intros q a Iq Ia. destruct (Fr q a) as [Fa|Fa]; [simpl; auto|auto| |auto]. left.
          intros ed1 Ga. assert (Na : ~ In a c) by (apply Ncs, in_concat; eauto). apply Fa.
          rewrite <- (mg_get Mg); auto; [intros ->; auto|rewrite Ko; auto].
        * destruct (eq_dec_of_eqb e t) as [->|Nt].
          -- rewrite Fr1 in G1; eauto. intros a Ia Na. destruct (Fr c a) as [Fa|Fa]; [simpl; auto|apply Ko; auto|auto|].
             exfalso. apply Na. symmetry. apply Fa; auto.
          -- rewrite (mg_get Mg) in G1; eauto. intros J. assert (K : In e (keys (edges n1))) by (eapply get_Some_key; eauto).
             apply (mg_keys Mg) in K. tauto.
      + intros f s Hf Hs. apply Y1; [intros q a b Iq; apply Hf; simpl; auto|].
        apply (@merged_fixed_as n (ord c) t n1 D f s (proj1 (rg_inv R)) (rg_fix R) Mg); auto; [apply Ko; auto|].
        intros a b Ia Ib. apply (Hf c); simpl; auto; apply Ko; auto.
      + intros e Ie Fe. apply Y2.
        * apply (mg_keys Mg). unfold merge_label. destruct (mem_spec e (ord c)) as [J|J]; auto.
        * unfold merge_label. destruct (mem_spec e (ord c)) as [J|J]; [apply (Fx1 e); auto|].
          unfold is_fixed. rewrite (mg_get Mg); auto. intros ->. apply J. apply Ko; auto.
  Qed.
End Joins.
