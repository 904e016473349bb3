(** * Proofs about copies: the store of list attributes and the sharing invariant *)
From Verif Require Import Base ModelTN ModelHist ModelCopy CopySpec.
Set Implicit Arguments.

Lemma set_nth_same {A} i (x : A) l : i < length l -> nth_error (set_nth i x l) i = Some x.
Proof. revert i; induction l as [|y r IH]; intros [|i] L; simpl in *; try lia; auto. apply IH; lia. Qed.
Lemma set_nth_other {A} i j (x : A) l : i <> j -> nth_error (set_nth i x l) j = nth_error l j.
Proof. revert i j; induction l as [|y r IH]; intros [|i] [|j] N; simpl in *; auto; try congruence. Qed.
Lemma map_set_nth {A B} (f : A -> B) i x l : map f (set_nth i x l) = set_nth i (f x) (map f l).
Proof. revert i; induction l as [|y r IH]; intros [|i]; simpl; f_equal; auto. Qed.
Lemma set_nth_out {A} i (x : A) l : length l <= i -> set_nth i x l = l.
Proof. revert i; induction l as [|y r IH]; intros [|i] L; simpl in *; auto; try lia. f_equal; apply IH; lia. Qed.

Lemma nth_error_ext_ {A} (l m : list A) : (forall i, nth_error l i = nth_error m i) -> l = m.
Proof.
  revert m; induction l as [|x r IH]; intros [|y m] E; auto.
  - discriminate (E 0).
  - discriminate (E 0).
  - f_equal; [now injection (E 0)|]. apply IH. intros i. exact (E (S i)).
Qed.

Section StoreP.
  Context {X D : Type} `{Eqb X}.
  Notation cell := addr.
  (** addresses in an address table *)
  Definition used (old : list (name * option addr)) (a : addr) : Prop := exists x, In (x, Some a) old.
  Definition at_ (old : list (name * option addr)) (x : name) (a : addr) : Prop := In (x, Some a) old.
  Definition somes (old : list (name * option addr)) : list addr :=
    flat_map (fun p => match snd p with Some a => [a] | None => [] end) old.
  Lemma somes_In old a : In a (somes old) <-> used old a.
  Proof.
    unfold somes, used. rewrite in_flat_map. split.
    - intros ([x [b|]] & I & J); simpl in J; [|contradiction]. destruct J as [->|[]]. eauto.
    - intros (x & I). exists (x, Some a). simpl; auto.
  Qed.
  Lemma in_del {A} (x y : name) (b : A) (l : list (name * A)) : In (y, b) (del x l) -> In (y, b) l.
  Proof.
    induction l as [|[z c] r IH]; simpl; auto.
    destruct (eqb_spec x z); simpl; intuition.
  Qed.
  Lemma somes_del x old : NoDup (somes old) -> NoDup (somes (del x old)).
  Proof.
    unfold somes. induction old as [|[z c] r IH]; simpl; auto. rewrite NoDup_app_iff. intros (A & B & C).
    destruct (eqb_spec x z); simpl; auto. rewrite NoDup_app_iff. repeat split; auto.
    intros a I J. apply (C a I). apply (proj2 (somes_In r a)). apply (proj1 (somes_In (del x r) a)) in J.
    destruct J as (y & J). exists y. eapply in_del; eauto.
  Qed.
  Lemma old_addr_at x old a : old_addr x old = Some a -> at_ old x a.
  Proof.
    unfold old_addr, at_. destruct (get x old) as [[b|]|] eqn:G; try discriminate. injection 1 as ->.
    revert G. induction old as [|[z c] r IH]; simpl; try discriminate.
    destruct (eqb_spec x z); [injection 1 as ->; subst; auto|auto].
  Qed.
  Lemma old_addr_gone x old a : NoDup (somes old) -> old_addr x old = Some a -> ~ used (del x old) a.
  Proof.
    unfold old_addr. induction old as [|[z c] r IH]; simpl; try discriminate.
    unfold somes; simpl. rewrite NoDup_app_iff. intros (A & B & C). fold (somes r) in *.
    destruct (eqb_spec x z).
    - subst z. destruct c as [b|]; try discriminate. injection 1 as ->. intros (y & I).
      apply (C a); simpl; auto. apply somes_In. exists y. simpl in I. eapply in_del; exact I.
    - intros G (y & I). simpl in I. destruct I as [I|I].
      + injection I as -> ->. apply (C a); simpl; auto. apply somes_In.
        exists x. apply (@old_addr_at x r a). unfold old_addr. exact G.
      + apply (IH B G). exists y; auto.
  Qed.

  Lemma put_spec (m : mode) (old : option addr) (v : X) cs cs' a :
    put m old v cs = (cs', a) -> (forall b, old = Some b -> b < length cs) ->
    length cs <= length cs' /\ nth_error cs' a = Some v /\
    (forall b, b < length cs -> (m = InPlace -> old <> Some b) -> nth_error cs' b = nth_error cs b) /\
    (old = Some a \/ (length cs <= a /\ a < length cs')).
  Proof.
    assert (AL : forall cs' a, alloc v cs = (cs', a) ->
      length cs <= length cs' /\ nth_error cs' a = Some v /\
      (forall b, b < length cs -> (m = InPlace -> old <> Some b) -> nth_error cs' b = nth_error cs b) /\
      (old = Some a \/ (length cs <= a /\ a < length cs'))).
    { unfold alloc. intros c' a' E. injection E as <- <-. rewrite app_length; simpl. repeat split; try lia.
      - rewrite nth_error_app2 by lia. now rewrite Nat.sub_diag.
      - intros b L _. apply nth_error_app1; auto. }
    unfold put. destruct old as [b|]; [|intros; auto]. intros E B. specialize (B b eq_refl).
    destruct m; [| |].
    - destruct (nth_error cs b) as [w|] eqn:N; auto. destruct (eqb_spec w v); auto.
      injection E as <- <-. subst w. repeat split; auto.
    - auto.
    - injection E as <- <-. rewrite set_nth_length. repeat split; auto.
      + apply set_nth_same; auto.
      + intros b' L Q. apply set_nth_other. intros ->. apply Q; auto.
  Qed.

  (** storing a table of attributes *)
  Lemma store_spec (md : name -> mode) (l : list (name * (option X * D))) : forall old cs cs' q,
    store md l old cs = (cs', q) -> NoDup (somes old) -> (forall a, used old a -> a < length cs) ->
    length cs <= length cs' /\ fetch cs' q = l /\
    (forall b, b < length cs -> (forall x, md x = InPlace -> ~ at_ old x b) -> nth_error cs' b = nth_error cs b) /\
    NoDup (somes (addrs q)) /\
    (forall x a, at_ (addrs q) x a -> a < length cs' /\ (at_ old x a \/ length cs <= a)).
  Proof.
    induction l as [|[x [v d]] r IH]; simpl; intros old cs cs' q E ND B.
    - injection E as <- <-. repeat split; auto; try (intros; contradiction). constructor. all: match goal with A : at_ _ _ _ |- _ => destruct A end.
    - assert (B' : forall cs1 : list X, length cs <= length cs1 -> forall a, used (del x old) a -> a < length cs1).
      { intros cs1 L a (y & I). apply in_del in I. specialize (B a (ex_intro _ y I)). lia. }
      destruct v as [v|].
      + destruct (put (md x) (old_addr x old) v cs) as [cs1 a] eqn:P.
        destruct (store md r (del x old) cs1) as [cs2 q2] eqn:S. injection E as <- <-.
        apply put_spec in P as (P1 & P2 & P3 & P4).
        2:{ intros b O. apply B. exists x. apply old_addr_at; auto. }
        apply IH in S as (S1 & S2 & S3 & S4 & S5); [|apply somes_del; auto|apply B'; auto].
        assert (LA : a < length cs1) by (apply nth_error_Some; congruence).
        assert (GA : ~ used (del x old) a).
        { destruct P4 as [O|[L1 L2]]; [apply old_addr_gone; auto|].
          intros (y & I). apply in_del in I. specialize (B a (ex_intro _ y I)). lia. }
        repeat split.
        * lia.
        * simpl. rewrite S3, P2, S2; auto. intros y M A. apply GA. exists y; auto.
        * intros b L Q. rewrite S3; [|lia|].
          -- apply P3; auto. intros M O. apply (Q x M). apply old_addr_at; auto.
          -- intros y M A. apply (Q y M). eapply in_del; eauto.
        * simpl. unfold somes; simpl. constructor; auto. fold (somes (addrs q2)). rewrite somes_In.
          intros (y & I). apply S5 in I as (I1 & [I2|I2]); [|lia]. apply GA. exists y; auto.
        * destruct H0 as [E|I].
          -- injection E as -> ->. lia.
          -- apply S5 in I; tauto.
        * destruct H0 as [E|I].
          -- injection E as -> ->. destruct P4 as [O|[L1 L2]]; [left; apply old_addr_at; auto|right; auto].
          -- apply S5 in I as (I1 & [I2|I2]); [left; eapply in_del; eauto|right; lia].
      + destruct (store md r (del x old) cs) as [cs2 q2] eqn:S. injection E as <- <-.
        apply IH in S as (S1 & S2 & S3 & S4 & S5); [|apply somes_del; auto|apply B'; auto].
        repeat split.
        * lia.
        * simpl. now rewrite S2.
        * intros b L Q. apply S3; auto. intros y M A. apply (Q y M). eapply in_del; eauto.
        * simpl. auto.
        * destruct H0 as [E|I]; [discriminate|]. apply S5 in I; tauto.
        * destruct H0 as [E|I]; [discriminate|]. apply S5 in I as (I1 & [I2|I2]); [left; eapply in_del; eauto|right; lia].
  Qed.

  Lemma fetch_ext (cs cs' : list X) (l : list (name * (option addr * D))) :
    (forall a, used (addrs l) a -> nth_error cs' a = nth_error cs a) -> fetch cs' l = fetch cs l.
  Proof.
    intros E. unfold fetch. apply map_ext_in. intros [x [a d]] I; simpl.
    destruct a as [a|]; auto. rewrite E; auto. exists x. unfold addrs. apply in_map_iff. exists (x, (Some a, d)); auto.
  Qed.
End StoreP.

Section CopyP.
  Context {T : Type} `{Payload T}.
  Notation net := (tn T).
  Notation hnet := (hnet (T := T)).

  Definition legs_of (o : hnet) := addrs (o_nodes o).
  Definition fixs_of (o : hnet) := addrs (o_edges o).
  (** an object with its own, allocated cells *)
  Record own (h : heap) (o : hnet) : Prop := {
    own_l : NoDup (somes (legs_of o));
    own_f : NoDup (somes (fixs_of o));
    own_la : forall a, used (legs_of o) a -> a < length (h_legs h);
    own_fa : forall a, used (fixs_of o) a -> a < length (h_fix h)
  }.
  Definition apart (o o' : hnet) : Prop :=
    (forall a, used (legs_of o) a -> ~ used (legs_of o') a) /\ (forall a, used (fixs_of o) a -> ~ used (fixs_of o') a).
  Lemma apart_sym o o' : apart o o' -> apart o' o.
  Proof. intros [A B]. split; intros a I J; [apply (A a J I)|apply (B a J I)]. Qed.

  Lemma join_split (n : net) :
    map (fun p => (fst p, join_node (snd p))) (map (fun p => (fst p, split_node (snd p))) (nodes n)) = nodes n.
  Proof. rewrite map_map. erewrite map_ext; [apply map_id|]. intros [x []]; reflexivity. Qed.
  Lemma join_split_e (n : net) :
    map (fun p => (fst p, join_edge (snd p))) (map (fun p => (fst p, split_edge (snd p))) (edges n)) = edges n.
  Proof. rewrite map_map. erewrite map_ext; [apply map_id|]. intros [x []]; reflexivity. Qed.

  Record saved (lm fm : name -> mode) (h : heap) (ol of : list (name * option addr)) (n : net) (h' : heap) (o' : hnet) : Prop := {
    sv_look : look h' o' = n;
    sv_own : own h' o';
    sv_ll : length (h_legs h) <= length (h_legs h');
    sv_lf : length (h_fix h) <= length (h_fix h');
    sv_legs : forall b, b < length (h_legs h) -> (forall x, lm x = InPlace -> ~ at_ ol x b) ->
                        nth_error (h_legs h') b = nth_error (h_legs h) b;
    sv_fix : forall b, b < length (h_fix h) -> (forall x, fm x = InPlace -> ~ at_ of x b) ->
                       nth_error (h_fix h') b = nth_error (h_fix h) b;
    sv_al : forall a, used (legs_of o') a -> used ol a \/ length (h_legs h) <= a;
    sv_af : forall a, used (fixs_of o') a -> used of a \/ length (h_fix h) <= a
  }.
  Lemma save_spec lm fm h ol of (n : net) h' o' :
    save lm fm h (ol, of) n = (h', o') -> NoDup (somes ol) -> NoDup (somes of) ->
    (forall a, used ol a -> a < length (h_legs h)) -> (forall a, used of a -> a < length (h_fix h)) ->
    saved lm fm h ol of n h' o'.
  Proof.
    unfold save; cbn [fst snd]. intros E N1 N2 B1 B2.
    destruct (store lm _ ol (h_legs h)) as [ls ns] eqn:E1.
    destruct (store fm _ of (h_fix h)) as [fs es] eqn:E2. injection E as <- <-.
    apply store_spec in E1 as (L1 & L2 & L3 & L4 & L5); auto.
    apply store_spec in E2 as (F1 & F2 & F3 & F4 & F5); auto.
    constructor; cbn [h_legs h_fix]; auto.
    - unfold look; cbn [o_nodes o_edges o_adj o_opens o_idc h_legs h_fix]. rewrite L2, F2, join_split, join_split_e.
      destruct n; reflexivity.
    - constructor; auto.
      + intros a (x & I). apply (L5 x a I).
      + intros a (x & I). apply (F5 x a I).
    - intros a (x & I). destruct (L5 x a I) as (_ & [J|J]); [left; exists x; auto|auto].
    - intros a (x & I). destruct (F5 x a I) as (_ & [J|J]); [left; exists x; auto|auto].
  Qed.
  Lemma look_ext h h' (o : hnet) :
    (forall a, used (legs_of o) a -> nth_error (h_legs h') a = nth_error (h_legs h) a) ->
    (forall a, used (fixs_of o) a -> nth_error (h_fix h') a = nth_error (h_fix h) a) -> look h' o = look h o.
  Proof. intros A B. unfold look. now rewrite (fetch_ext _ _ _ A), (fetch_ext _ _ _ B). Qed.
  Lemma own_grow h h' o : own h o -> length (h_legs h) <= length (h_legs h') -> length (h_fix h) <= length (h_fix h') -> own h' o.
  Proof.
    intros [A B C D] L F. constructor; auto.
    - intros a U. specialize (C a U). lia.
    - intros a U. specialize (D a U). lia.
  Qed.

  (** the sharing invariant *)
  Record sound (w : world (T := T)) (sh : list bool) : Prop := {
    so_len : length sh = length (w_objs w);
    so_own : forall i o, nth_error (w_objs w) i = Some (Some o) -> own (w_heap w) o;
    so_apart : forall i j o o', i <> j -> nth i sh true = false ->
      nth_error (w_objs w) i = Some (Some o) -> nth_error (w_objs w) j = Some (Some o') -> apart o o'
  }.

  Lemma legs_mode_assigns c (n : net) x : legs_mode c n x = InPlace -> assigns c = true.
  Proof. destruct c; simpl; try discriminate; auto; destruct (existsb _ _); discriminate. Qed.
  Lemma fix_mode_assigns c (n : net) x : fix_mode c n x = InPlace -> assigns c = true.
  Proof.
    destruct c; simpl; try discriminate; auto.
    - destruct change_fix; auto. destruct (eqb x _); discriminate.
    - destruct (nth_error _ _); try discriminate. destruct (eqb _ _); discriminate.
    - destruct (if eqb _ _ then _ else _); try discriminate. destruct (_ && _); discriminate.
  Qed.

  Lemma nth_set_nth {A} i j (x d : A) l : i <> j -> nth j (set_nth i x l) d = nth j l d.
  Proof. revert i j; induction l as [|y r IH]; intros [|i] [|j] N; simpl; auto; try congruence. Qed.

  Lemma act_sound w sh a p : sound w sh -> allowed sh (a :: p) = true ->
    looks (act w a) = act_val (looks w) a /\
    exists sh', sound (act w a) sh' /\ allowed sh' p = true.
  Proof.
    intros SO AL. destruct a as [i|i|i c]; cbn [act act_val allowed] in *.
    - (* copy *)
      split.
      + unfold looks; cbn [w_objs w_heap]. rewrite map_app; cbn [map]. do 2 f_equal.
        rewrite nth_error_map. destruct (nth_error (w_objs w) i) as [[o|]|]; reflexivity.
      + eexists; split; [|exact AL]. destruct SO as [LE OW AP]. constructor; cbn [w_objs w_heap].
        * rewrite !app_length, set_nth_length; simpl; lia.
        * intros j o N. destruct (Nat.lt_ge_cases j (length (w_objs w))).
          -- rewrite nth_error_app1 in N by auto. eauto.
          -- rewrite nth_error_app2 in N by auto. destruct (j - _) as [|?]; simpl in N; [|destruct n; discriminate].
             injection N as N. destruct (nth_error (w_objs w) i) as [[o'|]|] eqn:E; try discriminate.
             injection N as <-. destruct (OW _ _ E). constructor; auto.
        * intros j k o o' NE SH NJ NK.
          assert (LJ : j < length (w_objs w)).
          { destruct (Nat.lt_ge_cases j (length (w_objs w))); auto. rewrite app_nth2 in SH by (rewrite set_nth_length; lia).
            rewrite set_nth_length in SH. destruct (j - _) as [|[|?]]; simpl in SH; discriminate. }
          rewrite app_nth1 in SH by (rewrite set_nth_length; lia).
          assert (JI : j <> i).
          { intros ->. rewrite (nth_indep _ true false) in SH by (rewrite set_nth_length; lia).
            erewrite nth_error_nth in SH; [|apply set_nth_same; lia]. discriminate. }
          rewrite nth_set_nth in SH by auto. rewrite nth_error_app1 in NJ by auto.
          destruct (Nat.lt_ge_cases k (length (w_objs w))).
          -- rewrite nth_error_app1 in NK by auto. eauto.
          -- rewrite nth_error_app2 in NK by auto. destruct (k - _) as [|?]; simpl in NK; [|destruct n; discriminate].
             injection NK as NK. destruct (nth_error (w_objs w) i) as [[o2|]|] eqn:E; try discriminate.
             injection NK as <-. exact (AP _ _ _ _ JI SH NJ E).
    - (* deep copy *)
      destruct SO as [LE OW AP].
      assert (NONE : forall h', h' = w_heap w -> sound (World h' (w_objs w ++ [None])) (sh ++ [false])).
      { intros h' ->. constructor; cbn [w_objs w_heap].
        - rewrite !app_length; simpl; lia.
        - intros j o N. destruct (Nat.lt_ge_cases j (length (w_objs w))).
          + rewrite nth_error_app1 in N by auto. eauto.
          + rewrite nth_error_app2 in N by auto. destruct (j - _) as [|[|?]]; discriminate.
        - intros j k o o' NE SH NJ NK.
          assert (LT : forall m q, nth_error (w_objs w ++ [None]) m = Some (Some q) -> m < length (w_objs w)).
          { intros m q N. destruct (Nat.lt_ge_cases m (length (w_objs w))); auto.
            rewrite nth_error_app2 in N by auto. destruct (m - _) as [|[|?]]; discriminate. }
          pose proof (LT _ _ NJ). pose proof (LT _ _ NK).
          rewrite nth_error_app1 in NJ, NK by auto. rewrite app_nth1 in SH by lia. eauto. }
      unfold looks. rewrite nth_error_map.
      destruct (nth_error (w_objs w) i) as [[o|]|] eqn:E; cbn [option_map].
      2,3: (split; [cbn [w_objs w_heap]; now rewrite map_app|exists (sh ++ [false]); split; auto]).
      destruct (deep_val (look (w_heap w) o)) as [n [u|er]] eqn:DV.
      2:{ split; [cbn [w_objs w_heap]; now rewrite map_app|exists (sh ++ [false]); split; auto]. }
      destruct (save _ _ _ _ n) as [h' o'] eqn:SV. apply save_spec in SV.
      2,3: constructor. 2,3: intros a (x & []).
      destruct SV as [S1 S2 S3 S4 S5 S6 S7 S8].
      assert (OLD : forall j q, nth_error (w_objs w) j = Some (Some q) -> look h' q = look (w_heap w) q).
      { intros j q N. pose proof (OW _ _ N) as O. apply look_ext.
        - intros a U. apply S5; [apply (own_la O); auto|discriminate].
        - intros a U. apply S6; [apply (own_fa O); auto|discriminate]. }
      assert (NEW : forall j q, nth_error (w_objs w) j = Some (Some q) -> apart o' q).
      { intros j q N. pose proof (OW _ _ N) as O. split; intros a U V.
        - destruct (S7 a U) as [(x & [])|L]. pose proof (own_la O V). lia.
        - destruct (S8 a U) as [(x & [])|L]. pose proof (own_fa O V). lia. }
      split.
      + cbn [w_objs w_heap]. rewrite map_app. cbn [map option_map]. rewrite S1. f_equal.
        apply map_ext_in. intros [q|] I; auto. simpl. f_equal. apply In_nth_error in I as (j & I). eauto.
      + exists (sh ++ [false]). split; auto. constructor; cbn [w_objs w_heap].
        * rewrite !app_length; simpl; lia.
        * intros j q N. destruct (Nat.lt_ge_cases j (length (w_objs w))).
          -- rewrite nth_error_app1 in N by auto. eapply own_grow; eauto.
          -- rewrite nth_error_app2 in N by auto. destruct (j - _) as [|[|?]]; try discriminate. injection N as <-. auto.
        * intros j k q q' NE SH NJ NK.
          destruct (Nat.lt_ge_cases j (length (w_objs w))) as [LJ|LJ]; destruct (Nat.lt_ge_cases k (length (w_objs w))) as [LK|LK].
          -- rewrite nth_error_app1 in NJ, NK by auto. rewrite app_nth1 in SH by lia. eauto.
          -- rewrite nth_error_app1 in NJ by auto. rewrite nth_error_app2 in NK by auto.
             destruct (k - _) as [|[|?]]; try discriminate. injection NK as <-. apply apart_sym; eauto.
          -- rewrite nth_error_app1 in NK by auto. rewrite nth_error_app2 in NJ by auto.
             destruct (j - _) as [|[|?]]; try discriminate. injection NJ as <-. eauto.
          -- rewrite nth_error_app2 in NJ, NK by auto.
             destruct (j - _) as [|[|?]] eqn:Q1; try discriminate. destruct (k - _) as [|[|?]] eqn:Q2; try discriminate. lia.
    - (* edit *)
      apply Bool.andb_true_iff in AL as [AL1 AL2].
      unfold looks. rewrite nth_error_map.
      destruct (nth_error (w_objs w) i) as [[o|]|] eqn:E; cbn [option_map].
      2,3: (split; [reflexivity|exists sh; auto]).
      destruct SO as [LE OW AP]. pose proof (OW _ _ E) as [O1 O2 O3 O4].
      unfold edit. destruct (do_call c (look (w_heap w) o)) as [n' r] eqn:DC. cbn [fst].
      destruct (save _ _ _ _ n') as [h' o'] eqn:SV. apply save_spec in SV; auto.
      destruct SV as [S1 S2 S3 S4 S5 S6 S7 S8].
      assert (LI : i < length (w_objs w)) by (apply nth_error_Some; congruence).
      assert (EX : assigns c = true -> nth i sh true = false).
      { intros A. rewrite A in AL1. simpl in AL1. now destruct (nth i sh true). }
      assert (OLD : forall j q, j <> i -> nth_error (w_objs w) j = Some (Some q) -> look h' q = look (w_heap w) q).
      { intros j q NE N. pose proof (OW _ _ N) as O. apply look_ext.
        - intros a U. apply S5; [apply (own_la O); auto|]. intros x M A. apply legs_mode_assigns in M.
          refine (proj1 (AP i j o q _ (EX M) E N) a _ U); auto. exists x; auto.
        - intros a U. apply S6; [apply (own_fa O); auto|]. intros x M A. apply fix_mode_assigns in M.
          refine (proj2 (AP i j o q _ (EX M) E N) a _ U); auto. exists x; auto. }
      assert (NEW : forall j q, j <> i -> nth_error (w_objs w) j = Some (Some q) -> apart o q -> apart o' q).
      { intros j q NE N [A1 A2]. pose proof (OW _ _ N) as O. split; intros a U V.
        - destruct (S7 a U) as [W|L]; [apply (A1 a W V)|]. pose proof (own_la O V). lia.
        - destruct (S8 a U) as [W|L]; [apply (A2 a W V)|]. pose proof (own_fa O V). lia. }
      split.
      + cbn [w_objs w_heap]. rewrite map_set_nth. cbn [option_map]. rewrite S1.
        clear - OLD LI. apply nth_error_ext_. intros j.
        destruct (Nat.eq_dec j i) as [->|NE].
        * rewrite !set_nth_same by (rewrite map_length; auto). reflexivity.
        * rewrite !set_nth_other by auto. rewrite !nth_error_map.
          destruct (nth_error (w_objs w) j) as [[q|]|] eqn:N; simpl; auto. do 2 f_equal. eauto.
      + exists sh. split; auto. constructor; cbn [w_objs w_heap].
        * now rewrite set_nth_length.
        * intros j q N. destruct (Nat.eq_dec j i) as [->|NE].
          -- rewrite set_nth_same in N by auto. injection N as <-. auto.
          -- rewrite set_nth_other in N by auto. eapply own_grow; eauto.
        * intros j k q q' NE SH NJ NK.
          destruct (Nat.eq_dec j i) as [->|NJI]; [|destruct (Nat.eq_dec k i) as [->|NKI]].
          -- rewrite set_nth_same in NJ by auto. injection NJ as <-. rewrite set_nth_other in NK by auto. eauto.
          -- rewrite set_nth_same in NK by auto. injection NK as <-. rewrite set_nth_other in NJ by auto.
             apply apart_sym. apply (NEW j); auto. apply apart_sym. eauto.
          -- rewrite set_nth_other in NJ, NK by auto. eauto.
  Qed.

  Lemma run_sound p : forall w sh, sound w sh -> allowed sh p = true ->
    looks (fold_left act p w) = fold_left act_val p (looks w).
  Proof.
    induction p as [|a p IH]; intros w sh SO AL; auto. simpl.
    destruct (@act_sound w sh a p SO AL) as (E & sh' & SO' & AL'). rewrite (IH _ _ SO' AL'). now rewrite E.
  Qed.
  Lemma start_sound (n : net) : sound (start n) [false] /\ looks (start n) = [Some n].
  Proof.
    unfold start. destruct (save _ _ _ _ n) as [h o] eqn:SV. apply save_spec in SV.
    2,3: constructor. 2,3: intros a (x & []).
    destruct SV as [S1 S2 S3 S4 S5 S6 S7 S8]. split.
    - constructor; cbn [w_objs w_heap]; auto.
      + intros [|[|i]] q N; try discriminate. injection N as <-. auto.
      + intros [|[|i]] [|[|j]] q q' NE SH N M; try discriminate. congruence.
    - unfold looks; simpl. now rewrite S1.
  Qed.
End CopyP.
