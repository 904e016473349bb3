(** Exact effect of [fix], of dropping idle edges and of the second delta completion on the working
    copy of the compiler. *)
From Verif Require Import Base Scalar NetSpec ModelArray ModelTN TNInv TNOps TNExact ModelContract ContractFix.
Set Implicit Arguments.

Section Net.
  Context {T : Type} `{PT : Payload T}.
  Notation net := (tn T).
  Implicit Types (n m : net) (x e : name).

  Definition fixedb n e : bool :=
    match get e (edges n) with
    | Some ed => match e_fix ed with Some _ => true | None => false end
    | None => false
    end.

  (** nodes of [m] are those of [n] with the legs satisfying [p] removed *)
  Definition stripped (p : name -> bool) n m : Prop :=
    keys (nodes m) = keys (nodes n) /\
    forall x, match get x (nodes n), get x (nodes m) with
              | Some nd, Some nd' => n_legs nd' = filter (fun e => negb (p e)) (n_legs nd) /\
                                     n_val nd' = n_val nd
              | None, None => True
              | _, _ => False
              end.

  Lemma filter_filter (A : Type) (p q : A -> bool) l :
    filter p (filter q l) = filter (fun y => q y && p y) l.
  Proof.
    induction l as [|a r IH]; simpl; auto. destruct (q a); simpl; rewrite IH; auto.
  Qed.
  Lemma filter_ext_in' (A : Type) (p q : A -> bool) l :
    (forall y, In y l -> p y = q y) -> filter p l = filter q l.
  Proof. apply filter_ext_in. Qed.
  Lemma filter_all (A : Type) (p : A -> bool) l : (forall y, In y l -> p y = true) -> filter p l = l.
  Proof.
    induction l as [|a r IH]; simpl; intros E; auto. rewrite E by auto. f_equal; auto.
  Qed.

  Lemma stripped_ext p q n m : (forall e, p e = q e) -> stripped p n m -> stripped q n m.
  Proof.
    intros E [K G]. split; auto. intros x. specialize (G x).
    destruct (get x (nodes n)), (get x (nodes m)); auto. destruct G as [G1 G2]; split; auto.
    rewrite G1. apply filter_ext. intros; rewrite E; auto.
  Qed.
  Lemma stripped_trans p q n m k : stripped p n m -> stripped q m k -> stripped (fun e => p e || q e) n k.
  Proof.
    intros [K1 G1] [K2 G2]. split; [congruence|]. intros x. specialize (G1 x). specialize (G2 x).
    destruct (get x (nodes n)), (get x (nodes m)), (get x (nodes k)); auto; try tauto.
    destruct G1 as [A1 B1], G2 as [A2 B2]. split; [|congruence].
    rewrite A2, A1, filter_filter. apply filter_ext. intros; rewrite negb_orb; auto.
  Qed.
  Lemma stripped_refl n m : nodes m = nodes n -> stripped (fun _ => false) n m.
  Proof.
    intros E. split; [congruence|]. intros x. rewrite E. destruct (get x (nodes n)); auto.
    split; auto. symmetry. apply filter_all; auto.
  Qed.
  Lemma stripped_nodes p n m :
    NoDup (keys (nodes n)) -> stripped p n m ->
    map (fun q => (fst q, (n_legs (snd q), n_val (snd q)))) (nodes m) =
    map (fun q => (fst q, (filter (fun e => negb (p e)) (n_legs (snd q)), n_val (snd q)))) (nodes n).
  Proof.
    intros ND [K G]. revert ND K G. generalize (nodes m). generalize (nodes n). clear n m.
    induction l as [|[x nd] r IH]; intros [|[y nd'] r'] ND K G; simpl in *; try discriminate; auto.
    inversion K; subst. inversion ND; subst. f_equal.
    - specialize (G x). rewrite eqb_refl in G. destruct G as [-> ->]; auto.
    - apply IH; auto. intros z. specialize (G z).
      destruct (eqb_spec z x) as [Ez|]; auto. rewrite Ez.
      rewrite (proj2 (get_None x r)) by auto. rewrite (proj2 (get_None x r')); auto.
      unfold keys in *. congruence.
  Qed.
  Lemma stripped_In p n m x nd :
    NoDup (keys (nodes n)) -> stripped p n m -> In (x, nd) (nodes n) ->
    exists nd', get x (nodes m) = Some nd' /\ n_legs nd' = filter (fun e => negb (p e)) (n_legs nd) /\
                n_val nd' = n_val nd.
  Proof.
    intros ND [K G] I. specialize (G x). rewrite (In_get _ _ _ ND I) in G.
    destruct (get x (nodes m)); [|tauto]. eauto.
  Qed.

  (** ** fix (tensor_network.py:479-488) *)
  Lemma del_filter (A B : Type) `{Eqb A} (k : A) (l : list (A * B)) :
    del k l = filter (fun p => negb (eqb k (fst p))) l.
  Proof. auto. Qed.

  Lemma fix_list_spec l n :
    wf n -> NoDup l ->
    let n' := fold_left fix1 l n in
    wf n' /\ opens n' = opens n /\ idc n' = idc n /\
    stripped (fun e => mem e l && fixedb n e) n n' /\
    edges n' = filter (fun p => mem (fst p) (opens n) || negb (mem (fst p) l && fixedb n (fst p))) (edges n) /\
    adj n' = filter (fun p => negb (mem (snd p) l && fixedb n (snd p))) (adj n).
  Proof.
    revert n; induction l as [|e r IH]; intros n W ND; cbn [fold_left].
    - cbv zeta. split; auto. split; auto. split; auto. split.
      { apply stripped_ext with (fun _ => false); auto. apply stripped_refl; auto. }
      split; symmetry; apply filter_all; auto. intros p _. destruct (mem (fst p) (opens n)); auto.
    - inversion ND as [|? ? Ne ND']; subst.
      pose proof (fix1_wf e W) as W1. pose proof (fix1_spec e W) as Q.
      destruct (IH (fix1 n e) W1 ND') as (W2 & O2 & I2 & S2 & E2 & A2).
      cbv zeta. rewrite O2, I2, E2, A2. split; auto.
      assert (M : forall a, mem a (e :: r) = eqb a e || mem a r) by reflexivity.
      destruct (fixedb n e) eqn:FB.
      + unfold fixedb in FB. destruct (get e (edges n)) as [[d [fx|]]|] eqn:G; try discriminate.
        destruct Q as (O & Kn & Nn & Ed & A).
        assert (FF : forall a, a <> e -> fixedb (fix1 n e) a = fixedb n a).
        { intros a Na. unfold fixedb. rewrite Ed. destruct (mem e (opens n)); auto.
          rewrite get_del_neq by congruence; auto. }
        assert (PP : forall a, eqb a e || (mem a r && fixedb (fix1 n e) a) = mem a (e :: r) && fixedb n a).
        { intros a. rewrite M. destruct (eqb_spec a e) as [->|Na]; simpl.
          - unfold fixedb. rewrite G; auto.
          - rewrite FF by auto; auto. }
        split; [auto|]. split.
        { unfold fix1. rewrite G. simpl.
          destruct (@fold_map_legs T (filter (fun i => negb (eqb e i))) (dedup (adj_nodes n e)) n (dedup_NoDup _))
            as (Q1 & Q2 & Q3 & Q4 & Q5 & Q6).
          fold (strip_leg (T := T) e) in Q4.
          match goal with |- context [if ?b then _ else _] => destruct b end; simpl; auto. }
        split.
        { apply stripped_ext with (fun a => eqb a e || (mem a r && fixedb (fix1 n e) a)); auto.
          apply stripped_trans with (fix1 n e); auto. split; auto. intros x. specialize (Nn x).
          destruct (get x (nodes n)), (get x (nodes (fix1 n e))); auto.
          destruct Nn as [L V]; split; auto. rewrite L. apply filter_ext.
          intros a; rewrite eqb_sym; auto. }
        split.
        * rewrite Ed, O. destruct (mem e (opens n)) eqn:Mo.
          -- apply filter_ext. intros [a ed]; cbn [fst snd].
             destruct (eqb_spec a e) as [->|Na]; [rewrite Mo; auto|].
             rewrite <- PP. destruct (eqb_spec a e); [congruence|auto].
          -- rewrite del_filter, filter_filter. apply filter_ext. intros [a ed]; cbn [fst snd].
             rewrite <- PP. rewrite (eqb_sym e a). destruct (eqb_spec a e) as [->|Na]; simpl; auto.
             rewrite Mo; auto.
        * rewrite A, filter_filter. apply filter_ext. intros [x a]; cbn [fst snd].
          rewrite <- PP. rewrite (eqb_sym e a). rewrite negb_orb; auto.
      + assert (Eq : fix1 n e = n).
        { unfold fixedb in FB. destruct (get e (edges n)) as [[d [fx|]]|]; auto; discriminate. }
        rewrite Eq in *.
        assert (PP : forall a, mem a r && fixedb n a = mem a (e :: r) && fixedb n a).
        { intros a. rewrite M. destruct (eqb_spec a e) as [->|Na]; simpl; auto.
          rewrite FB. destruct (mem e r); auto. }
        split; [auto|]. split; [auto|]. split; [apply stripped_ext with (1 := PP); auto|].
        split; apply filter_ext; intros p; rewrite PP; auto.
  Qed.

  Lemma fixedb_key n e : fixedb n e = true -> In e (keys (edges n)).
  Proof.
    unfold fixedb. destruct (get e (edges n)) eqn:E; [|discriminate]. intros _.
    eapply get_Some_key; eauto.
  Qed.

  Lemma fix_all_spec n :
    wf n ->
    wf (fix_all n) /\ opens (fix_all n) = opens n /\ stripped (fixedb n) n (fix_all n) /\
    edges (fix_all n) = filter (fun p => mem (fst p) (opens n) || negb (fixedb n (fst p))) (edges n) /\
    adj (fix_all n) = filter (fun p => negb (fixedb n (snd p))) (adj n).
  Proof.
    intros W. destruct (@fix_list_spec (keys (edges n)) n W (wf_edges W)) as (W' & O & _ & St & E & A).
    fold (fix_all n) in *.
    assert (PP : forall e, mem e (keys (edges n)) && fixedb n e = fixedb n e).
    { intros e. destruct (fixedb n e) eqn:F; [|apply andb_false_r].
      rewrite andb_true_r. apply mem_In, fixedb_key; auto. }
    split; auto. split; auto. split; [apply stripped_ext with (1 := PP); auto|].
    split; [rewrite E|rewrite A]; apply filter_ext; intros p; rewrite PP; auto.
  Qed.

  (** ** idle edges *)
  Definition attachedb n e : bool := existsb (fun p => eqb e (snd p)) (adj n).

  Lemma adj_nodes_nil n e : adj_nodes n e = [] <-> attachedb n e = false.
  Proof.
    unfold adj_nodes, attachedb. induction (adj n) as [|[x a] r IH]; simpl; [tauto|].
    destruct (eqb e a); simpl; auto. split; discriminate.
  Qed.

  Lemma drop_list_spec l n :
    NoDup l ->
    let n' := fold_left (fun n e => match adj_nodes n e with
                            | [] => if mem e (opens n) then n else graph_del_edge n e
                            | _ => n
                            end) l n in
    opens n' = opens n /\ nodes n' = nodes n /\ adj n' = adj n /\ idc n' = idc n /\
    edges n' = filter (fun p => negb (mem (fst p) l) || mem (fst p) (opens n) || attachedb n (fst p)) (edges n).
  Proof.
    revert n; induction l as [|e r IH]; intros n ND; cbn [fold_left].
    - cbv zeta. split; auto. split; auto. split; auto. split; auto. symmetry; apply filter_all; auto.
    - inversion ND as [|? ? Ne ND']; subst.
      set (n1 := match adj_nodes n e with [] => if mem e (opens n) then n else graph_del_edge n e | _ => n end).
      assert (Q : opens n1 = opens n /\ nodes n1 = nodes n /\ adj n1 = adj n /\ idc n1 = idc n /\
                  edges n1 = filter (fun p => negb (eqb (fst p) e) || mem (fst p) (opens n) || attachedb n (fst p)) (edges n)).
      { assert (keepall : mem e (opens n) || attachedb n e = true ->
          edges n = filter (fun p => negb (eqb (fst p) e) || mem (fst p) (opens n) || attachedb n (fst p)) (edges n)).
        { intros E. symmetry; apply filter_all. intros [a ed] _; simpl.
          destruct (eqb_spec a e) as [->|]; simpl; auto. }
        unfold n1. destruct (adj_nodes n e) as [|y ys] eqn:E.
        - apply adj_nodes_nil in E. destruct (mem e (opens n)) eqn:Mo; auto.
          + auto 10.
          + simpl. split; auto. split; auto. split; [|split; auto].
            * apply filter_all. intros [x a] I; simpl. destruct (eqb_spec e a) as [<-|]; auto.
              exfalso. unfold attachedb in E.
              assert (existsb (fun p => eqb e (snd p)) (adj n) = true); [|congruence].
              apply existsb_exists. exists (x, e); split; auto; simpl. apply eqb_refl.
            * unfold del. apply filter_ext. intros [a ed]; simpl. rewrite eqb_sym.
              destruct (eqb_spec a e) as [->|]; simpl; auto. rewrite Mo, E; auto.
        - split; auto. split; auto. split; auto. split; auto. apply keepall.
          destruct (attachedb n e) eqn:At; [apply orb_true_r|]. apply adj_nodes_nil in At. congruence. }
      fold n1. destruct Q as (Q1 & Q2 & Q3 & Q4 & Q5).
      destruct (IH n1 ND') as (R1 & R2 & R3 & R4 & R5).
      cbv zeta. rewrite R1, R2, R3, R4, R5, Q1, Q2, Q3, Q4, Q5.
      split; auto. split; auto. split; auto. split; auto. rewrite filter_filter.
      apply filter_ext. intros [a ed]; simpl.
      change (mem a (e :: r)) with (eqb a e || mem a r).
      replace (attachedb n1 a) with (attachedb n a) by (unfold attachedb; rewrite Q3; auto).
      destruct (eqb a e), (mem a r), (mem a (opens n)), (attachedb n a); auto.
  Qed.

  Lemma drop_idle_spec n :
    NoDup (keys (edges n)) ->
    opens (drop_idle n) = opens n /\ nodes (drop_idle n) = nodes n /\ adj (drop_idle n) = adj n /\
    edges (drop_idle n) = filter (fun p => mem (fst p) (opens n) || attachedb n (fst p)) (edges n).
  Proof.
    intros ND. destruct (@drop_list_spec (keys (edges n)) n ND) as (E1 & E2 & E3 & _ & E5).
    fold (drop_idle n) in *. split; auto. split; auto. split; auto. rewrite E5.
    apply filter_ext_in. intros [a ed] I. simpl.
    replace (mem a (keys (edges n))) with true; auto.
    symmetry. apply mem_In, in_map_iff. exists (a, ed); auto.
  Qed.

  Lemma attached_In n e : wf n -> attachedb n e = true <-> exists x nd, get x (nodes n) = Some nd /\ In e (n_legs nd).
  Proof.
    intros W. unfold attachedb. rewrite existsb_exists. split.
    - intros [[x a] [I E]]. simpl in E. destruct (eqb_spec e a) as [<-|]; [|discriminate]. exists x. apply (wf_adj W); auto.
    - intros [x [nd [G I]]]. exists (x, e). split; [apply (wf_adj W); eauto|apply eqb_refl].
  Qed.

  Lemma filter_edges_get (p : name * edge -> bool) n e :
    NoDup (keys (edges n)) ->
    get e (filter p (edges n)) = match get e (edges n) with
                                 | Some ed => if p (e, ed) then Some ed else None
                                 | None => None
                                 end.
  Proof.
    induction (edges n) as [|[a ed] r IH]; simpl; intros ND; auto.
    inversion ND; subst. destruct (eqb_spec e a) as [->|N].
    - destruct (p (a, ed)); simpl; [rewrite eqb_refl; auto|].
      rewrite IH by auto. rewrite (proj2 (get_None a r)); auto.
    - destruct (p (a, ed)); simpl; [destruct (eqb_spec e a); [congruence|]|]; auto.
  Qed.
  Lemma filter_keys_NoDup (B : Type) (p : name * B -> bool) (l : list (name * B)) :
    NoDup (keys l) -> NoDup (keys (filter p l)).
  Proof.
    induction l as [|[a b] r IH]; simpl; intros ND; auto. inversion ND; subst.
    destruct (p (a, b)); auto. simpl. constructor; auto. intros I. apply H1.
    apply in_map_iff in I as [[a' b'] [E I]]. apply filter_In in I as [I _].
    simpl in E; subst. apply in_map_iff; exists (a, b'); auto.
  Qed.

  Lemma drop_idle_wf n : wf n -> wf (drop_idle n).
  Proof.
    intros W. destruct (@drop_idle_spec n (wf_edges W)) as (O & N & A & E).
    assert (Kp : forall e, In e (keys (edges n)) -> mem e (opens n) || attachedb n e = true ->
                           In e (keys (edges (drop_idle n)))).
    { intros e I Hk. apply key_get in I as [ed G]. rewrite E.
      apply get_Some_key with ed. rewrite filter_edges_get by apply (wf_edges W). rewrite G. simpl. rewrite Hk; auto. }
    constructor; rewrite ?O, ?N, ?A.
    - apply (wf_nodes W).
    - rewrite E. apply filter_keys_NoDup, (wf_edges W).
    - intros x nd e G I. apply Kp; [eapply (wf_legs W); eauto|].
      rewrite (proj2 (attached_In e W)); [apply orb_true_r|eauto].
    - apply (wf_adj W).
    - apply (wf_adj_nodup W).
    - intros e I. apply Kp; [apply (wf_opens W); auto|]. rewrite (proj2 (mem_In e (opens n))); auto.
    - intros e ed fx G F. rewrite E, filter_edges_get in G by apply (wf_edges W).
      destruct (get e (edges n)) as [ed0|] eqn:G0; [|discriminate].
      destruct (mem (fst (e, ed0)) (opens n) || attachedb n (fst (e, ed0))); inversion G; subst.
      eapply (wf_fix W); eauto.
  Qed.

  (** ** the second delta completion does nothing on a normalised network *)
  Lemma delta_open_nodup n l cnt :
    NoDup (map snd l) -> (forall p, In p l -> ~ In (snd p) (keys cnt)) ->
    exists cnt', delta_open l cnt n = (n, Ok cnt') /\
                 (forall e k, In (e, k) cnt' -> In (e, k) cnt \/ (In e (map snd l) /\ k = 0)).
  Proof.
    revert cnt; induction l as [|[i e] r IH]; simpl; intros cnt ND F.
    - exists cnt. split; auto.
    - inversion ND; subst. rewrite (proj2 (get_None e cnt)) by (apply (F (i, e)); auto).
      destruct (IH (set e 0 cnt)) as [cnt' [E Q]]; auto.
      { intros p I Ik. rewrite keys_set_In in Ik. destruct Ik as [Ep|Ik].
        - apply H1. rewrite <- Ep. apply in_map; auto.
        - eapply F; eauto. }
      exists cnt'. split; auto. intros a k I. apply Q in I as [I|[I1 I2]]; auto.
      assert (Is : In (a, k) (cnt ++ [(e, 0)])).
      { replace (cnt ++ [(e, 0)]) with (set e 0 cnt); auto.
        assert (Nk : ~ In e (keys cnt)) by (apply (F (i, e)); auto). clear - Nk.
        induction cnt as [|[b c] q IHc]; simpl; auto.
        destruct (eqb_spec e b) as [->|]; [exfalso; apply Nk; simpl; auto|]. f_equal. apply IHc.
        intros I; apply Nk; simpl; auto. }
      apply in_app_iff in Is as [Is|[Is|[]]]; auto. inversion Is; subst; auto.
  Qed.

  Lemma map_snd_enum (A : Type) (l : list A) : map snd (enum l) = l.
  Proof.
    unfold enum. generalize 0. induction l as [|a r IH]; simpl; intros k; auto. f_equal; auto.
  Qed.

  Lemma delta_fix_noop n old p :
    (exists ed, get (fst p) (edges n) = Some ed /\ e_fix ed = None) -> In (fst p) old ->
    delta_fix old p n = (n, Ok tt).
  Proof.
    destruct p as [e k]; simpl. intros [ed [G F]] I. unfold delta_fix, mbind, getst. rewrite G, F.
    rewrite (proj2 (mem_In e old) I). auto.
  Qed.

  Lemma template_delta_noop n :
    wf n -> nodes n <> [] -> NoDup (opens n) ->
    (forall e, In e (opens n) -> attachedb n e = true /\ fixedb n e = false) ->
    template_delta n = (n, Ok tt).
  Proof.
    intros W NE ND At. unfold template_delta, mbind, getst.
    destruct (nodes n) as [|p ps] eqn:En; [congruence|]. simpl.
    destruct (@delta_open_nodup n (enum (opens n)) []) as [cnt [E Q]].
    { rewrite map_snd_enum; auto. }
    { intros ? ? []. }
    rewrite E. clear E.
    assert (R : forall e k, In (e, k) cnt -> In e (opens n)).
    { intros e k I. apply Q in I as [[]|[I _]]. rewrite map_snd_enum in I; auto. }
    clear Q. induction cnt as [|[e k] r IH]; [auto|]. cbn [foreach].
    unfold mbind. rewrite delta_fix_noop.
    - apply IH. intros; eapply R; simpl; eauto.
    - assert (I : In e (opens n)) by (eapply R; simpl; eauto). simpl.
      destruct (At e I) as [_ F]. apply (wf_opens W) in I. apply key_get in I as [ed G].
      exists ed; split; auto. unfold fixedb in F. rewrite G in F. destruct (e_fix ed); congruence.
    - simpl. assert (I : In e (opens n)) by (eapply R; simpl; eauto).
      destruct (At e I) as [A _]. unfold attachedb in A. apply existsb_exists in A as [[x a] [Ia Ea]].
      simpl in Ea. destruct (eqb_spec e a) as [<-|]; [|discriminate]. apply in_map_iff; exists (x, e); auto.
  Qed.
End Net.
