(** The 'f' commands: fixing axes of arrays, and the effect of a whole block of such commands. *)
From Verif Require Import Base Scalar NetSpec Sums ModelArray ModelTN ModelContract.
Set Implicit Arguments.

Section Fix.
  Context {S : scalar}.
  Notation nd := (nd S).
  Implicit Types (l fd : list name) (a r : nd) (s v : name -> nat) (e x : name).

  Definition keep fd l : list name := filter (fun e => negb (mem e fd)) l.
  Definition pin fd v s : name -> nat := fun e => if mem e fd then v e else s e.

  (** [r] is [a] (with legs [l]) with the legs in [fd] set to [v] *)
  Definition is_fixed (sz : name -> nat) fd v l a r : Prop :=
    nd_shape r = map sz (keep fd l) /\
    forall s, nd_at r (map s (keep fd l)) = nd_at a (map (pin fd v s) l).

  Lemma fixed_pos_ge fd l k p : In p (fixed_pos fd k l) -> k <= p.
  Proof.
    revert k; induction l as [|e r IH]; simpl; intros k; [tauto|].
    destruct (mem e fd); simpl.
    - intros [->|I]; auto. apply IH in I; lia.
    - intros I; apply IH in I; lia.
  Qed.
  Lemma fixed_pos_length fd l k :
    length (fixed_pos fd k l) = length (filter (fun e => mem e fd) l).
  Proof.
    revert k; induction l as [|e r IH]; simpl; intros k; auto.
    destruct (mem e fd); simpl; auto.
  Qed.

  Lemma index_of_app (A : Type) `{Eqb A} (x : A) P Q :
    ~ In x P -> index_of x (P ++ Q) = length P + index_of x Q.
  Proof.
    induction P as [|y P IH]; simpl; intros N; auto.
    destruct (eqb_spec x y) as [->|]; [exfalso; auto|]. f_equal; auto.
  Qed.

  Lemma mem_app (A : Type) `{Eqb A} (x : A) P Q : mem x (P ++ Q) = mem x P || mem x Q.
  Proof. unfold mem. apply existsb_app. Qed.

  Lemma drop_fixed (X : Type) (g : name -> X) fd l P k :
    (forall p, In p P -> p < k) ->
    drop_from k (P ++ fixed_pos fd k l) (map g l) = map g (keep fd l).
  Proof.
    revert P k; induction l as [|e r IH]; simpl; intros P k HP; auto.
    assert (NP : mem k P = false).
    { apply mem_false. intros I. apply HP in I. lia. }
    rewrite mem_app, NP. simpl.
    destruct (mem e fd) eqn:M; simpl.
    - unfold mem at 1. simpl. rewrite Nat.eqb_refl. simpl.
      rewrite <- (IH (P ++ [k]) (Datatypes.S k)).
      + rewrite <- app_assoc; auto.
      + intros p I. apply in_app_iff in I as [I|[->|[]]]; auto. apply HP in I; lia.
    - destruct (mem k (fixed_pos fd (1 + k) r)) eqn:Q.
      + apply mem_In in Q. apply fixed_pos_ge in Q. lia.
      + simpl in *. rewrite Q. f_equal. apply IH. intros p I. apply HP in I; lia.
  Qed.

  Lemma weave_fixed fd v s l P V k :
    (forall p, In p P -> p < k) -> length P = length V ->
    weave_from k (length l) (P ++ fixed_pos fd k l)
               (V ++ map v (filter (fun e => mem e fd) l)) (map s (keep fd l))
    = map (pin fd v s) l.
  Proof.
    revert P V k; induction l as [|e r IH]; simpl; intros P V k HP HL; auto.
    assert (NP : ~ In k P). { intros I. apply HP in I. lia. }
    rewrite mem_app, (proj2 (mem_false k P) NP). simpl. unfold pin at 1.
    destruct (mem e fd) eqn:M; simpl.
    - unfold mem at 1. simpl. rewrite Nat.eqb_refl. simpl.
      rewrite index_of_app by auto. simpl. rewrite Nat.eqb_refl.
      f_equal.
      + rewrite Nat.add_0_r, HL. rewrite app_nth2 by lia. rewrite Nat.sub_diag. auto.
      + rewrite <- (IH (P ++ [k]) (V ++ [v e]) (Datatypes.S k)).
        * rewrite <- !app_assoc; auto.
        * intros p I. apply in_app_iff in I as [I|[->|[]]]; auto. apply HP in I; lia.
        * rewrite !app_length; simpl; lia.
    - destruct (mem k (fixed_pos fd (1 + k) r)) eqn:Q.
      + apply mem_In in Q. apply fixed_pos_ge in Q. lia.
      + simpl in *. rewrite Q. f_equal. apply IH; auto. intros p I. apply HP in I; lia.
  Qed.

  Lemma fixed_check sz fd v l sh k :
    (forall e, In e l -> mem e fd = true -> v e < sz e) ->
    sh = repeat 0 k ++ map sz l ->
    forallb (fun p => match nth_error sh (fst p) with Some n => snd p <? n | None => false end)
            (combine (fixed_pos fd k l) (map v (filter (fun e => mem e fd) l))) = true.
  Proof.
    intros Hv ->.
    assert (Q : forall A, length A = k -> 
      forallb (fun p => match nth_error (A ++ map sz l) (fst p) with Some n => snd p <? n | None => false end)
            (combine (fixed_pos fd k l) (map v (filter (fun e => mem e fd) l))) = true).
    2:{ apply Q, repeat_length. }
    revert k; induction l as [|e r IH]; simpl; intros k A HA; auto.
    assert (R : forall A', length A' = 1 + k -> forallb (fun p => match nth_error (A' ++ map sz r) (fst p) with Some n => snd p <? n | None => false end)
            (combine (fixed_pos fd (1 + k) r) (map v (filter (fun e => mem e fd) r))) = true).
    { intros A' HA'. apply IH; auto. intros; apply Hv; simpl; auto. }
    replace (A ++ sz e :: map sz r) with ((A ++ [sz e]) ++ map sz r) by (rewrite <- app_assoc; auto).
    specialize (R (A ++ [sz e])). rewrite app_length, HA in R. specialize (R ltac:(simpl; lia)).
    destruct (mem e fd) eqn:M; auto.
    cbn [map combine forallb fst snd].
    rewrite <- app_assoc. rewrite nth_error_app2 by lia. rewrite HA, Nat.sub_diag. simpl.
    simpl in R. rewrite <- app_assoc in R. simpl in R. rewrite R.
    rewrite andb_true_r. apply Nat.ltb_lt. apply Hv; simpl; auto.
  Qed.

  (** contractor.py:86-88 on the positions computed by compiler.py:129-134 *)
  Lemma nd_fix_fixed sz fd v l a :
    nd_shape a = map sz l ->
    (forall e, In e l -> mem e fd = true -> v e < sz e) ->
    exists r, nd_fix a (fixed_pos fd 0 l) (map v (filter (fun e => mem e fd) l)) = Ok r /\
              is_fixed sz fd v l a r.
  Proof.
    intros Sh Hv. unfold nd_fix.
    rewrite (@fixed_check sz fd v l (nd_shape a) 0 Hv Sh).
    rewrite fixed_pos_length, map_length, Nat.eqb_refl. simpl.
    eexists; split; [reflexivity|]. split; simpl.
    - rewrite Sh. apply (@drop_fixed _ sz fd l [] 0). intros ? [].
    - intros s. rewrite Sh, map_length. f_equal.
      apply (@weave_fixed fd v s l [] [] 0); auto. intros ? [].
  Qed.

  Lemma fixed_pos_nil fd l k : fixed_pos fd k l = [] -> keep fd l = l /\ forall e, In e l -> mem e fd = false.
  Proof.
    revert k; induction l as [|e r IH]; simpl; intros k E; [split; auto; tauto|].
    destruct (mem e fd) eqn:M; [discriminate|]. apply IH in E as [E1 E2]. simpl. rewrite E1.
    split; auto. intros e' [<-|I]; auto.
  Qed.
  Lemma is_fixed_none sz fd v l a :
    nd_shape a = map sz l -> (forall e, In e l -> mem e fd = false) -> keep fd l = l ->
    is_fixed sz fd v l a a.
  Proof.
    intros Sh N K. split; rewrite K; auto. intros s. f_equal. apply map_ext_in.
    intros e I. unfold pin. rewrite N; auto.
  Qed.

  Lemma is_fixed_ext sz fd v v' l a r :
    (forall e, In e l -> mem e fd = true -> v e = v' e) ->
    is_fixed sz fd v l a r -> is_fixed sz fd v' l a r.
  Proof.
    intros E [Sh At]. split; auto. intros s. rewrite At. f_equal. apply map_ext_in.
    intros e I. unfold pin. destruct (mem e fd) eqn:M; auto.
  Qed.

  (** ** a block of 'f' commands *)
  Section Block.
    Context {T : Type}.
    Variable stage : nat.
    Variable sz : name -> nat.
    Variable fd : list name.
    Implicit Types (ns : list (name * node T)) (st : store S).

    Definition not_stage (al : aloc) : Prop := forall x, al <> AFix stage x.

    Lemma template_fix_other ns dref x :
      ~ In x (keys ns) -> snd (template_fix stage fd ns dref) x = dref x.
    Proof.
      revert dref; induction ns as [|[y nd] r IH]; intros dref N; auto.
      assert (Nr : ~ In x (keys r)) by (intros I; apply N; simpl; auto).
      assert (Ne : x <> y) by (intros ->; apply N; simpl; auto).
      cbn [template_fix]. destruct (fixed_pos fd 0 (n_legs nd)) eqn:E; [apply IH; auto|].
      cbn [snd]. rewrite IH by auto. destruct (eqb_spec x y); congruence.
    Qed.

    Lemma template_fix_stage ns dref x :
      snd (template_fix stage fd ns dref) x = dref x \/
      snd (template_fix stage fd ns dref) x = AFix stage x.
    Proof.
      revert dref; induction ns as [|[y nd] r IH]; intros dref; [simpl; auto|].
      cbn [template_fix]. destruct (fixed_pos fd 0 (n_legs nd)) eqn:E; [apply IH|].
      cbn [snd]. destruct (IH (fun y0 => if eqb y0 y then AFix stage y else dref y0)) as [Q|Q]; auto.
      rewrite Q. destruct (eqb_spec x y) as [->|]; auto.
    Qed.

    Lemma template_fix_run ns dref st :
      NoDup (keys ns) ->
      (forall x, In x (keys ns) -> not_stage (dref x)) ->
      (forall x nd e, In (x, nd) ns -> In e (n_legs nd) -> mem e fd = true -> fixc st (stage, e) < sz e) ->
      (forall x nd, In (x, nd) ns -> exists a, arr st (dref x) = Some a /\ nd_shape a = map sz (n_legs nd)) ->
      exists st', run_cmds (fst (template_fix stage fd ns dref)) st = Ok st' /\
        fixc st' = fixc st /\ data st' = data st /\ pre st' = pre st /\
        (forall al, not_stage al -> arr st' al = arr st al) /\
        (forall x, ~ In x (keys ns) -> arr st' (AFix stage x) = arr st (AFix stage x)) /\
        (forall x nd a, In (x, nd) ns -> arr st (dref x) = Some a ->
           exists r, arr st' (snd (template_fix stage fd ns dref) x) = Some r /\
                     is_fixed sz fd (fun e => fixc st (stage, e)) (n_legs nd) a r).
    Proof.
      revert dref st; induction ns as [|[y nd] r IH]; intros dref st ND HS HV HA.
      - exists st. simpl. repeat split; auto. intros ? ? ? [].
      - inversion ND as [|? ? Ny ND']; subst.
        destruct (HA y nd (or_introl eq_refl)) as [a [Ea Sha]].
        cbn [template_fix]. destruct (fixed_pos fd 0 (n_legs nd)) as [|p ps] eqn:E.
        + destruct (IH dref st ND') as (st' & R & F1 & F2 & F3 & F4 & F5 & F6).
          { intros x I; apply HS; simpl; auto. }
          { intros x nd' e I; apply (HV x); simpl; auto. }
          { intros x nd' I; apply HA; simpl; auto. }
          exists st'. split; auto. split; auto. split; auto. split; auto. split; auto. split.
          { intros x Nx. apply F5. intros I; apply Nx; simpl; auto. }
          intros x nd' a' [Eq|I] Ea'.
          * inversion Eq; subst. rewrite template_fix_other by auto.
            rewrite F4 by (apply HS; simpl; auto). exists a'. split; auto.
            apply fixed_pos_nil in E as [E1 E2]. apply is_fixed_none; auto.
            rewrite Ea in Ea'; inversion Ea'; subst; auto.
          * destruct (F6 x nd' a' I Ea') as [r' [Q1 Q2]]. eauto.
        + rewrite <- E. clear p ps E.
          set (dref' := fun y0 => if eqb y0 y then AFix stage y else dref y0).
          cbn [fst snd run_cmds]. unfold run_cmd at 1, read. rewrite Ea. cbn [bind].
          destruct (@nd_fix_fixed sz fd (fun e => fixc st (stage, e)) (n_legs nd) a Sha)
            as [q [Eq Fq]].
          { intros e I M. apply (HV y nd); simpl; auto. }
          rewrite map_map. rewrite Eq. cbn [bind].
          set (st1 := set_arr st (AFix stage y) q).
          assert (A1 : forall al, al <> AFix stage y -> arr st1 al = arr st al).
          { intros al Nl. unfold st1; simpl. destruct (@eqb_spec _ aloc_eqb al (AFix stage y)); [congruence|auto]. }
          assert (A2 : arr st1 (AFix stage y) = Some q).
          { unfold st1, set_arr. cbn [arr]. rewrite eqb_refl. auto. }
          assert (D1 : forall x, In x (keys r) -> dref' x = dref x).
          { intros x I. unfold dref'. destruct (eqb_spec x y) as [->|]; auto. tauto. }
          destruct (IH dref' st1 ND') as (st' & R & F1 & F2 & F3 & F4 & F5 & F6).
          { intros x I. rewrite D1 by auto. apply HS; simpl; auto. }
          { intros x nd' e I; apply (HV x); simpl; auto. }
          { intros x nd' I. rewrite D1 by (apply in_map_iff; exists (x, nd'); auto).
            rewrite A1; [apply HA; simpl; auto|].
            apply HS. simpl; right. apply in_map_iff; exists (x, nd'); auto. }
          exists st'. split; auto. split; auto. split; auto. split; auto. split; [|split].
          { intros l Nl. rewrite F4 by auto. apply A1. apply Nl. }
          { intros x Nx. rewrite F5 by (intros I; apply Nx; simpl; auto). apply A1.
            intros Eq'. inversion Eq'; subst. apply Nx; simpl; auto. }
          intros x nd' a' [Eq'|I] Ea'.
          * inversion Eq'; subst. rewrite template_fix_other by auto.
            unfold dref' at 1. rewrite eqb_refl. rewrite F5 by auto. exists q. split; auto.
            rewrite Ea in Ea'; inversion Ea'; subst; auto.
          * assert (Ix : In x (keys r)) by (apply in_map_iff; exists (x, nd'); auto).
            destruct (F6 x nd' a' I) as [r' [Q1 Q2]].
            { rewrite D1 by auto. rewrite A1; auto. apply HS; simpl; auto. }
            exists r'. split; auto.
    Qed.
  End Block.
End Fix.
