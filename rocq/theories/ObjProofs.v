(** * Proofs about objects that share memory *)
From Verif Require Import Base Scalar ModelArray ModelVal ModelObj CopyProofs.
Set Implicit Arguments.

Section ObjP.
  Variable S : scalar.
  Notation st := (store_ S).
  Notation obj := (obj S).

  (** ** objects that are not written keep their looks *)
  (** [R] and [B] contain whatever the objects in [R] refer to *)
  Definition held (R B : nat -> Prop) (o : obj) : Prop :=
    match o with
    | OTensor (DArr a _) => B a
    | OTensor _ => True
    | OSum ts => forall x q, In (x, q) ts -> R q
    end.
  Definition closed (R B : nat -> Prop) (s : st) : Prop :=
    forall r o, R r -> nth_error (objs s) r = Some o -> held R B o.
  Record agree (R B : nat -> Prop) (s s' : st) : Prop := {
    ag_o : forall r, R r -> nth_error (objs s') r = nth_error (objs s) r;
    ag_b : forall a, B a -> nth_error (bufs s') a = nth_error (bufs s) a
  }.
  Lemma agree_refl R B s : agree R B s s.
  Proof. split; auto. Qed.
  Lemma agree_trans R B s1 s2 s3 : agree R B s1 s2 -> agree R B s2 s3 -> agree R B s1 s3.
  Proof. intros [A1 A2] [B1 B2]. split; intros; [rewrite B1, A1|rewrite B2, A2]; auto. Qed.
  Lemma dread_agree R B s s' r d : closed R B s -> agree R B s s' -> R r -> nth_error (objs s) r = Some (OTensor d) ->
    dread s' d = dread s d.
  Proof.
    intros C A I E. pose proof (C _ _ I E) as H. destruct d as [|a fx|c]; auto. simpl in *. unfold arr.
    now rewrite (ag_b A).
  Qed.
  Lemma view_S k (s : st) r : view (Datatypes.S k) s r =
    match nth_error (objs s) r with
    | Some (OTensor d) => option_map VTensor (dread s d)
    | Some (OSum ts) => option_map VSum (view_terms (view k s) ts)
    | None => None
    end.
  Proof. reflexivity. Qed.
  Lemma deep_S k r (s : st) : deep (Datatypes.S k) r s =
    match nth_error (objs s) r with
    | Some (OTensor d) => match dread s d with Some b => let '(s, q) := new_tensor b s in (s, Ok q) | None => (s, Err KeyError) end
    | Some (OSum ts) =>
        let '(s, ts') := deep_terms (deep k) ts s in
        match ts' with Ok ts' => let '(s, q) := new_obj (OSum ts') s in (s, Ok q) | Err e => (s, Err e) end
    | None => (s, Err RuntimeError)
    end.
  Proof. reflexivity. Qed.
  Lemma fix_S k r i v (s : st) : fix_ (Datatypes.S k) r i v s =
    match nth_error (objs s) r with
    | Some (OTensor DNone) => (s, Ok r)
    | Some (OTensor (DNum c)) => (s, Err ValueError)
    | Some (OTensor (DArr a fx)) =>
        match arr s a fx with
        | None => (s, Err KeyError)
        | Some b =>
            match nth_error (nd_shape b) i with
            | None => (s, Err ValueError)
            | Some d =>
                if v <? d then
                  (put_obj r (OTensor (if length (nd_shape b) =? 1 then DNum (nd_at b [v]) else DArr a (fx ++ [(i, v)]))) s, Ok r)
                else (s, Err IndexError)
            end
        end
    | Some (OSum ts) =>
        let '(s, q) := new_obj (OSum ts) s in
        let '(s, e) := fix_terms (fun t => fix_ k t i v) ts s in
        match e with Ok ts' => (put_obj q (OSum ts') s, Ok q) | Err e => (s, Err e) end
    | None => (s, Err RuntimeError)
    end.
  Proof. reflexivity. Qed.
  Lemma view_terms_ext f g (ts : list (name * oref)) : (forall x q, In (x, q) ts -> f q = g q) ->
    view_terms (S := S) f ts = view_terms g ts.
  Proof.
    induction ts as [|[x q] r IH]; simpl; auto. intros E. rewrite (E x q) by auto. rewrite IH; auto. intros; eapply E; eauto.
  Qed.
  Lemma view_agree R B s s' : closed R B s -> agree R B s s' -> forall k r, R r -> view k s' r = view k s r.
  Proof.
    intros C A. induction k as [|k IH]; intros r I; auto. rewrite !view_S, (ag_o A) by auto.
    destruct (nth_error (objs s) r) as [[d|ts]|] eqn:E; auto.
    - now rewrite (@dread_agree R B s s' r d C A I E).
    - f_equal. apply view_terms_ext. intros x q J. apply IH. exact (C _ _ I E x q J).
  Qed.

  (** ** what a program may write *)
  (** [G]: the objects a program can get hold of; they include those it will make.  With [f] it may
      call fix_index, with [w] it may call +=. *)
  Section Frame.
    Variables (f w : bool) (G R B : nat -> Prop) (s0 : st).
    Hypothesis GR : forall r, G r -> R r -> False.
    Hypothesis Gnew : forall r, length (objs s0) <= r -> G r.
    Hypothesis Bold : forall a, B a -> a < length (bufs s0).
    Definition mine (o : obj) : Prop :=
      match o with
      | OTensor (DArr a _) => w = true -> ~ B a
      | OTensor _ => True
      | OSum ts => f = true -> forall x q, In (x, q) ts -> G q
      end.
    Record J (s : st) : Prop := {
      j_o : length (objs s0) <= length (objs s);
      j_b : length (bufs s0) <= length (bufs s);
      j_ag : agree R B s0 s;
      j_mine : forall r o, G r -> nth_error (objs s) r = Some o -> mine o
    }.
    Lemma new_obj_J o s s' q : J s -> mine o -> new_obj o s = (s', q) -> J s' /\ G q /\ objs s' = objs s ++ [o] /\ bufs s' = bufs s.
    Proof.
      intros [O Bf [A1 A2] M] N E. unfold new_obj in E. injection E as <- <-. cbn [objs bufs]. repeat split; auto; cbn [objs bufs].
      - rewrite app_length; lia.
      - intros r I. destruct (Nat.lt_ge_cases r (length (objs s))) as [L|L].
        + rewrite nth_error_app1 by auto. auto.
        + exfalso. apply (@GR r); auto. apply Gnew. lia.
      - intros r o' I Q. destruct (Nat.lt_ge_cases r (length (objs s))) as [L|L].
        + rewrite nth_error_app1 in Q by auto. eauto.
        + rewrite nth_error_app2 in Q by auto. destruct (r - _) as [|[|?]]; try discriminate. injection Q as <-; auto.
    Qed.
    Lemma put_obj_J r o s : J s -> G r -> mine o -> J (put_obj r o s).
    Proof.
      intros [O Bf [A1 A2] M] I N. constructor; cbn [put_obj objs bufs]; auto.
      - now rewrite set_nth_length.
      - split; cbn [put_obj objs bufs]; auto. intros q Iq. rewrite set_nth_other; auto. intros ->. eauto.
      - intros q o' Iq Q. destruct (Nat.eq_dec r q) as [<-|N'].
        + destruct (Nat.lt_ge_cases r (length (objs s))) as [L|L].
          * rewrite set_nth_same in Q by auto. injection Q as <-; auto.
          * rewrite set_nth_out in Q by auto. eauto.
        + rewrite set_nth_other in Q by auto. eauto.
    Qed.
    Lemma new_buf_J b s s' a : J s -> new_buf b s = (s', a) -> J s' /\ ~ B a.
    Proof.
      intros [O Bf [A1 A2] M] E. unfold new_buf in E. injection E as <- <-. split.
      - constructor; cbn [objs bufs]; auto.
        + rewrite app_length; lia.
        + split; cbn [objs bufs]; auto. intros a I. rewrite nth_error_app1; auto. apply Bold in I. lia.
      - intros I. apply Bold in I. lia.
    Qed.
    Lemma new_tensor_J b s s' q : J s -> new_tensor b s = (s', q) -> J s' /\ G q.
    Proof.
      intros I E. unfold new_tensor in E. destruct b as [b|].
      - destruct (new_buf b s) as [s1 a] eqn:E1. apply new_buf_J in E1 as [I1 N]; auto.
        apply new_obj_J in E as (E & F & _); auto. simpl. auto.
      - apply new_obj_J in E as (E & F & _); simpl; auto.
    Qed.
    Lemma copy_J r s s' e : J s -> G r -> copy_ r s = (s', e) -> J s' /\ (forall q, e = Ok q -> G q).
    Proof.
      intros I Gr E. unfold copy_ in E. destruct (nth_error (objs s) r) as [o|] eqn:N.
      - pose proof (@j_mine _ I r _ Gr N) as M. assert (Q : forall s' e, (let '(s, q) := new_obj o s in (s, Ok q)) = (s', e) ->
          J s' /\ (forall q, e = Ok q -> G q)).
        { intros s1 e1 E1. destruct (new_obj o s) as [s2 q] eqn:E2. apply new_obj_J in E2 as (E2 & F & _); auto.
          injection E1 as <- <-. split; auto. intros q' Q. injection Q as <-; auto. }
        destruct o as [[|a fx|c]|ts]; auto.
        destruct (new_tensor _ s) as [s2 q] eqn:E2. apply new_tensor_J in E2 as (E2 & F); auto.
        injection E as <- <-. split; auto. intros q' Q'. injection Q' as <-; auto.
      - injection E as <- <-. split; auto. discriminate.
    Qed.
    Lemma deep_J : forall k r s s' e, J s -> deep k r s = (s', e) -> J s' /\ (forall q, e = Ok q -> G q).
    Proof.
      induction k as [|k IH]; intros r s s' e I E.
      { injection E as <- <-. split; auto; discriminate. }
      rewrite deep_S in E. destruct (nth_error (objs s) r) as [[d|ts]|].
      3:{ injection E as <- <-. split; auto; discriminate. }
      - destruct (dread s d) as [b|]; [|injection E as <- <-; split; auto; discriminate].
        destruct (new_tensor b s) as [s2 q] eqn:E2. apply new_tensor_J in E2 as (E2 & F); auto.
        injection E as <- <-. split; auto. intros q' Q'. injection Q' as <-; auto.
      - assert (T : forall ts s s' e, J s -> deep_terms (deep k) ts s = (s', e) ->
          J s' /\ (forall l, e = Ok l -> forall x q, In (x, q) l -> G q)).
        { clear E I. induction ts0 as [|[x q] l IHl]; intros s1 s2 e2 I E; simpl in E.
          - injection E as <- <-. split; auto. intros l Q. injection Q as <-. destruct 1.
          - destruct (deep k q s1) as [s3 [q'|ex]] eqn:E1; apply IH in E1 as [I1 G1]; auto.
            + destruct (deep_terms (deep k) l s3) as [s4 [l'|ex]] eqn:E3; apply IHl in E3 as [I3 G3]; auto.
              * injection E as <- <-. split; auto. intros l2 Q. injection Q as <-. intros y z [Q|Q]; [injection Q as <- <-; auto|eapply G3; eauto].
              * injection E as <- <-. split; auto; discriminate.
            + injection E as <- <-. split; auto; discriminate. }
        destruct (deep_terms (deep k) ts s) as [s1 [l|ex]] eqn:E1; apply T in E1 as [I1 G1]; auto.
        + destruct (new_obj (OSum l) s1) as [s2 q] eqn:E2. apply new_obj_J in E2 as (E2 & F & _); auto.
          * injection E as <- <-. split; auto. intros q' Q'. injection Q' as <-; auto.
          * simpl. eauto.
        + injection E as <- <-. split; auto; discriminate.
    Qed.
    Lemma iadd_J r u s s' e : w = true -> J s -> G r -> iadd r u s = (s', e) -> J s'.
    Proof.
      intros W I Gr E. unfold iadd in E. destruct (nth_error (objs s) r) as [[[|a fx|c]|ts]|] eqn:N; try (injection E as <- <-; auto).
      - destruct (nth_error (bufs s) a) as [b|] eqn:Nb; [|injection E as <- <-; auto].
        destruct (eqb _ _); injection E as <- <-; auto.
        pose proof (@j_mine _ I r _ Gr N W) as NB. destruct I as [O Bf [A1 A2] M]. constructor; cbn [objs bufs]; auto.
        + now rewrite set_nth_length.
        + split; cbn [objs bufs]; auto. intros a' Ia. rewrite set_nth_other; auto. intros ->. auto.
      - destruct (eqb _ _); injection E as <- <-; auto. apply put_obj_J; simpl; auto.
    Qed.
    Lemma fix_J : f = true -> forall k r i v s s' e, J s -> G r -> fix_ k r i v s = (s', e) -> J s' /\ (forall q, e = Ok q -> G q).
    Proof.
      intros F. induction k as [|k IH]; intros r i v s s' e I Gr E.
      { injection E as <- <-. split; auto; discriminate. }
      rewrite fix_S in E. destruct (nth_error (objs s) r) as [[[|a fx|c]|ts]|] eqn:N.
      1,3,5: injection E as <- <-; split; auto; try discriminate. { intros q Q; injection Q as <-; auto. }
      - destruct (arr s a fx) as [b|]; [|injection E as <- <-; split; auto; discriminate].
        destruct (nth_error (nd_shape b) i) as [d|]; [|injection E as <- <-; split; auto; discriminate].
        destruct (v <? d); injection E as <- <-; split; auto; try discriminate.
        + apply put_obj_J; auto. pose proof (@j_mine _ I r _ Gr N) as M. simpl in *. destruct (_ =? 1); auto.
        + intros q Q; injection Q as <-; auto.
      - assert (T : forall ts s s' e, J s -> (forall x q, In (x, q) ts -> G q) -> fix_terms (fun t => fix_ k t i v) ts s = (s', e) ->
          J s' /\ (forall l, e = Ok l -> forall x q, In (x, q) l -> G q)).
        { clear E I N. induction ts0 as [|[x q] l IHl]; intros s1 s2 e2 I Gs E; simpl in E.
          - injection E as <- <-. split; auto. intros l Q. injection Q as <-. destruct 1.
          - destruct (fix_ k q i v s1) as [s3 [q'|ex]] eqn:E1; apply IH in E1 as [I1 G1]; simpl in *; eauto.
            + destruct (fix_terms _ l s3) as [s4 [l'|ex]] eqn:E3; apply IHl in E3 as [I3 G3]; eauto.
              * injection E as <- <-. split; auto. intros l2 Q. injection Q as <-. intros y z [Q|Q]; [injection Q as <- <-; auto|eapply G3; eauto].
              * injection E as <- <-. split; auto; discriminate.
            + injection E as <- <-. split; auto; discriminate. }
        pose proof (@j_mine _ I r _ Gr N) as M. simpl in M. specialize (M F).
        destruct (new_obj (OSum ts) s) as [s1 q] eqn:E1. apply new_obj_J in E1 as (I1 & Gq & _); auto. 2:{ simpl; auto. }
        destruct (fix_terms _ ts s1) as [s2 [l|ex]] eqn:E2; apply T in E2 as [I2 G2]; auto.
        + injection E as <- <-. split; [apply put_obj_J; simpl; eauto|]. intros q' Q'. injection Q' as <-; auto.
        + injection E as <- <-. split; auto; discriminate.
    Qed.
    Lemma add_term_J r x u s s' e : J s -> G r -> G u -> add_term r x u s = (s', e) -> J s'.
    Proof.
      intros I Gr Gu E. unfold add_term in E. destruct (nth_error (objs s) r) as [[d|ts]|] eqn:N; try (injection E as <- <-; auto).
      destruct (has x ts); injection E as <- <-; auto. apply put_obj_J; auto. pose proof (@j_mine _ I r _ Gr N) as M. simpl in *.
      intros F y q Q. apply in_app_iff in Q as [Q|[Q|[]]]; [eauto|injection Q as <- <-; auto].
    Qed.
    Lemma update_term_J r x u s s' e : J s -> G r -> G u -> update_term r x u s = (s', e) -> J s'.
    Proof.
      intros I Gr Gu E. unfold update_term in E. destruct (nth_error (objs s) r) as [[d|ts]|] eqn:N; try (injection E as <- <-; auto).
      destruct (has x ts); injection E as <- <-; auto. apply put_obj_J; auto. pose proof (@j_mine _ I r _ Gr N) as M. simpl in *.
      intros F y q Q. specialize (M F). revert M Q. clear - Gu. induction ts as [|[z c] r IH]; simpl.
      - intros _ [Q|[]]. injection Q as <- <-; auto.
      - intros M. destruct (eqb_spec x z); simpl; (intros [Q|Q]; [injection Q as <- <-; eauto|]); [eauto|]. apply IH; eauto.
    Qed.
    Lemma remove_term_J r x s s' e : J s -> G r -> remove_term r x s = (s', e) -> J s'.
    Proof.
      intros I Gr E. unfold remove_term in E. destruct (nth_error (objs s) r) as [[d|ts]|] eqn:N; try (injection E as <- <-; auto).
      destruct (has x ts); injection E as <- <-; auto. apply put_obj_J; auto. pose proof (@j_mine _ I r _ Gr N) as M. simpl in *.
      intros F y q Q. apply in_del in Q. eauto.
    Qed.
    Definition may (x : stmt S) : bool :=
      match x with XFix _ _ _ => f | XIadd _ _ => w | _ => true end.
    Definition envG (vs : env) : Prop := forall i r, var vs i = Some r -> G r.
    Lemma envG_snoc vs o : envG vs -> (forall r, o = Some r -> G r) -> envG (vs ++ [o]).
    Proof.
      intros E Q i r V. unfold var in V. destruct (Nat.lt_ge_cases i (length vs)) as [L|L].
      - rewrite nth_error_app1 in V by auto. apply (E i). exact V.
      - rewrite nth_error_app2 in V by auto. destruct (i - _) as [|[|?]]; simpl in V; try discriminate. destruct o; [|discriminate].
        injection V as <-. auto.
    Qed.
    Lemma keep_J vs p : envG vs -> J (fst p) -> (forall q, snd p = Ok q -> G q) -> J (fst (keep vs p)) /\ envG (snd (keep vs p)).
    Proof.
      destruct p as [s1 [q|ex]]; unfold keep; cbn [fst snd]; intros E I Q; split; auto; apply envG_snoc; auto; try discriminate.
      intros r Z; injection Z as <-. auto.
    Qed.
    Lemma exec_J k s vs x : may x = true -> J s -> envG vs -> J (fst (exec k (s, vs) x)) /\ envG (snd (exec k (s, vs) x)).
    Proof.
      intros M I E. destruct x; cbn [exec may] in *.
      - destruct (new_tensor b s) as [s1 q] eqn:Q. apply new_tensor_J in Q as [? ?]; auto. split; auto. apply envG_snoc; auto.
        intros r Z; injection Z as <-; auto.
      - destruct (new_obj (OSum []) s) as [s1 q] eqn:Q. apply new_obj_J in Q as (? & ? & _); auto. 2:{ simpl. intros; contradiction. }
        split; auto. apply envG_snoc; auto. intros r Z; injection Z as <-; auto.
      - destruct (var vs i) as [r|] eqn:V; [|cbn [fst snd]; split; [exact I|apply envG_snoc; [exact E|discriminate]]].
        destruct (copy_ r s) as [s1 e] eqn:Q. apply copy_J in Q as [? ?]; eauto. apply keep_J; auto.
      - destruct (var vs i) as [r|] eqn:V; [|cbn [fst snd]; split; [exact I|apply envG_snoc; [exact E|discriminate]]].
        destruct (deep k r s) as [s1 e] eqn:Q. apply deep_J in Q as [? ?]; eauto. apply keep_J; auto.
      - destruct (var vs i) as [r|] eqn:V; [|split; auto]. destruct (var vs j) as [u|] eqn:V'; [|split; auto].
        destruct (add_term r x u s) as [s1 e] eqn:Q. apply add_term_J in Q; eauto.
      - destruct (var vs i) as [r|] eqn:V; [|split; auto]. destruct (var vs j) as [u|] eqn:V'; [|split; auto].
        destruct (update_term r x u s) as [s1 e] eqn:Q. apply update_term_J in Q; eauto.
      - destruct (var vs i) as [r|] eqn:V; [|split; auto].
        destruct (remove_term r x s) as [s1 e] eqn:Q. apply remove_term_J in Q; eauto.
      - destruct (var vs i) as [r|] eqn:V; [|cbn [fst snd]; split; [exact I|apply envG_snoc; [exact E|discriminate]]].
        destruct (fix_ k r j v s) as [s1 e] eqn:Q. apply fix_J in Q as [? ?]; eauto. apply keep_J; auto.
      - destruct (var vs i) as [r|] eqn:V; [|split; auto].
        destruct (iadd r u s) as [s1 e] eqn:Q. apply iadd_J in Q; eauto.
    Qed.
    Lemma exec_all_J k p : forallb may p = true -> forall s vs, J s -> envG vs -> J (exec_all k p s vs).
    Proof.
      unfold exec_all. induction p as [|x p IH]; intros M s vs I E; auto. cbn [fold_left forallb] in *. apply andb_true_iff in M as [M1 M2].
      destruct (@exec_J k s vs x M1 I E) as [I1 E1]. destruct (exec k (s, vs) x) as [s1 vs1]. cbn [fst snd] in *. apply IH; auto.
    Qed.
    (** the frame theorem *)
    Lemma frame k p vs : forallb may p = true -> envG vs -> closed R B s0 ->
      (forall r o, G r -> nth_error (objs s0) r = Some o -> mine o) ->
      forall k' r, R r -> view k' (exec_all k p s0 vs) r = view k' s0 r.
    Proof.
      intros M E C Mn k' r I. apply (@view_agree R B s0 _ C); auto. apply j_ag. apply exec_all_J; auto.
      constructor; auto. apply agree_refl.
    Qed.
  End Frame.
End ObjP.
