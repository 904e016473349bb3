(** A decision procedure, sound for [well], for objects whose networks name nodes and edges by integers. *)
From Verif Require Import Base Scalar NetSpec Sums NetAlg ModelArray ModelTN TNInv TNOps
  TNExact TNSpec TNDelta TNDeltaValue TNValue TNEdit ModelContract ContractFix ContractNet ContractTemplate
  ContractExec ContractMerge ContractMain ModelVal ModelNest NestSpec NestSub NestEnc NestJoin NestExp NestSound ModelDeep DeepSpec.
Set Implicit Arguments.
Open Scope nat_scope.

Section Check.
  Context {S : scalar}.
  Notation tval := (tval S).
  Notation net := (tn tval).
  Implicit Types (n m : net) (x y e : name) (v : tval).

  Definition some {A} (o : option A) : bool := match o with Some _ => true | None => false end.
  Lemma some_ok {A} (o : option A) : some o = true -> o <> None.
  Proof. destruct o; simpl; congruence. Qed.

  Definition wfb n : bool :=
    nodupb (keys (nodes n)) && nodupb (keys (edges n)) && nodupb (adj n) &&
    forallb (fun p => forallb (fun e => mem e (keys (edges n)) && mem (fst p, e) (adj n)) (n_legs (snd p))) (nodes n) &&
    forallb (fun p => match get (fst p) (nodes n) with Some nd => mem (snd p) (n_legs nd) | None => false end) (adj n) &&
    forallb (fun e => mem e (keys (edges n))) (opens n) &&
    forallb (fun p => match e_fix (snd p) with
                      | None => true
                      | Some fx => match e_dim (snd p) with Some d => forallb (fun i => i <? d) fx | None => false end
                      end) (edges n).
  Lemma wfb_ok n : wfb n = true -> wf n.
  Proof.
    unfold wfb. intros H. do 6 (apply andb_true_iff in H as [H ?]).
    apply nodupb_NoDup in H, H5, H4. rewrite forallb_forall in H3, H2, H1, H0. constructor; auto.
    - intros x nd e G Ie. apply get_In in G. specialize (H3 _ G). rewrite forallb_forall in H3. specialize (H3 e Ie).
      apply andb_true_iff in H3 as [H3 _]. apply mem_In; auto.
    - intros x e. split.
      + intros I. specialize (H2 _ I). cbn [fst snd] in H2. destruct (get x (nodes n)) as [nd|] eqn:G; [|discriminate].
        exists nd. split; auto. apply mem_In; auto.
      + intros (nd & G & Ie). apply get_In in G. specialize (H3 _ G). rewrite forallb_forall in H3. specialize (H3 e Ie).
        apply andb_true_iff in H3 as [_ H3]. apply mem_In; auto.
    - intros e Ie. apply mem_In. auto.
    - intros e ed fx G Q. apply get_In in G. specialize (H0 _ G). cbn [snd] in H0. rewrite Q in H0. destruct (e_dim ed) as [d|]; [|discriminate].
      exists d. split; auto. apply Forall_forall. rewrite forallb_forall in H0. intros v Iv. apply Nat.ltb_lt; auto.
  Qed.
  Definition regularb n : bool :=
    wfb n && negb (mem NN (keys (edges n))) &&
    forallb (fun p => match e_fix (snd p) with Some fx => nodupb fx | None => true end) (edges n) &&
    forallb (fun p => match n_val (snd p) with Some t => eqb (tval_shape t) (Some (map (edim n) (n_legs (snd p)))) | None => false end
                      && forallb (fun e => some (edim n e)) (n_legs (snd p))) (nodes n) &&
    forallb (fun e => some (edim n e)) (opens n).
  Lemma regularb_ok n : regularb n = true -> regular n.
  Proof.
    unfold regularb. intros H. do 4 (apply andb_true_iff in H as [H ?]). rewrite forallb_forall in H2, H1, H0. constructor.
    - split; [apply wfb_ok; auto|]. apply negb_true_iff, mem_false in H3. auto.
    - intros e ed fx G Q. apply get_In in G. specialize (H2 _ G). cbn [snd] in H2. rewrite Q in H2. apply nodupb_NoDup; auto.
    - intros x nd G. apply get_In in G. specialize (H1 _ G). cbn [snd] in H1. apply andb_true_iff in H1 as [A B].
      destruct (n_val nd) as [t|]; [|discriminate]. exists t. split; auto. split; [exact (proj1 (eqb_eq _ _) A)|].
      rewrite forallb_forall in B. intros e Ie. apply some_ok; auto.
    - intros e Ie. apply some_ok; auto.
  Qed.

  Definition attb n e : bool := existsb (fun p => mem e (n_legs (snd p))) (nodes n).
  Lemma attb_ok n e : wf n -> attb n e = true -> exists x, attached n x e.
  Proof.
    intros W H. apply existsb_exists in H as ([x nd] & I & M). exists x, nd. split; [apply In_get; auto; apply (wf_nodes W)|apply mem_In; auto].
  Qed.
  Definition livelyb n : bool := forallb (fun p => mem (fst p) (opens n) || some (e_fix (snd p)) || attb n (fst p)) (edges n).
  Definition one_valueb n : bool :=
    forallb (fun p => match e_fix (snd p) with Some [_] | None => true | _ => mem (fst p) (opens n) end) (edges n).
  Definition bareb n : bool := forallb (fun e => negb (is_fixed n e) && attb n e) (opens n).
  Fixpoint straightb (k : nat) m : bool :=
    nodupb (opens m) &&
    forallb (fun p => match n_val (snd p) with
                      | Some (VNet q) => match k with O => false | Datatypes.S k => straightb k q end
                      | _ => true end) (nodes m).
  Lemma straightb_ok : forall k m, straightb k m = true -> straight m.
  Proof.
    induction k as [|k IH]; intros m H; cbn [straightb] in H; apply andb_true_iff in H as [H H0]; rewrite forallb_forall in H0;
      (constructor; [apply nodupb_NoDup; auto|]); intros x q (nd & G & V); apply get_In in G; specialize (H0 _ G); cbn [snd] in H0; rewrite V in H0;
      [discriminate|auto].
  Qed.
  Definition legsb k n : bool :=
    forallb (fun p => match n_val (snd p) with Some (VNet q) => straightb k q || forallb (fun e => negb (is_fixed n e)) (n_legs (snd p)) | _ => true end) (nodes n).
  Lemma livelyb_ok n : wf n -> livelyb n = true -> lively n.
  Proof.
    intros W H e ed G. unfold livelyb in H. rewrite forallb_forall in H. apply get_In in G. specialize (H _ G). cbn [fst snd] in H.
    rewrite !orb_true_iff in H. destruct H as [[H|H]|H]; [left; apply mem_In; auto|right; left; apply some_ok; auto|right; right; apply attb_ok; auto].
  Qed.
  Lemma one_valueb_ok n : one_valueb n = true -> one_value n.
  Proof.
    intros H e ed fx G Q No. unfold one_valueb in H. rewrite forallb_forall in H. apply get_In in G. specialize (H _ G). cbn [fst snd] in H.
    rewrite Q in H. destruct fx as [|v [|w r]]; eauto; apply mem_In in H; tauto.
  Qed.
  Lemma bareb_ok n : wf n -> bareb n = true -> bare_opens n.
  Proof.
    intros W H e Ie. unfold bareb in H. rewrite forallb_forall in H. specialize (H e Ie). apply andb_true_iff in H as [A B].
    split; [apply negb_true_iff; auto|apply attb_ok; auto].
  Qed.
  Lemma legsb_ok k n l : legsb k n = true -> loose n l.
  Proof.
    intros H x nd m _ G V. unfold legsb in H. rewrite forallb_forall in H. apply get_In in G. specialize (H _ G). cbn [snd] in H.
    rewrite V in H. apply orb_true_iff in H as [H|H]; [left; apply (@straightb_ok k); auto|]. right. intros e Ie.
    rewrite forallb_forall in H. apply negb_true_iff; auto.
  Qed.

  (** all the conditions on a nested network *)
  Definition intb x : bool := match x with NI _ => true | _ => false end.
  Fixpoint innerb (k : nat) m : bool :=
    regularb m && forallb intb (keys (nodes m) ++ keys (edges m)) && livelyb m && one_valueb m && bareb m && legsb k m &&
    forallb (fun p => match n_val (snd p) with
                      | Some (VNet q) => match k with O => false | Datatypes.S k => innerb k q end
                      | Some (VView _ _) | None => false
                      | _ => true end) (nodes m).
  Definition holdb (f : net -> bool) n : bool :=
    forallb (fun p => match n_val (snd p) with Some (VNet q) => f q | _ => true end) (nodes n).
  Lemma holdb_ok f n : holdb f n = true -> forall x m, held n x m -> f m = true.
  Proof.
    intros H x m (nd & G & V). unfold holdb in H. rewrite forallb_forall in H. apply get_In in G. specialize (H _ G). cbn [snd] in H. rewrite V in H. auto.
  Qed.
  Lemma ints_ok l : forallb intb l = true -> forall x, In x l -> exists z, x = NI z.
  Proof. intros H x Ix. rewrite forallb_forall in H. specialize (H x Ix). destruct x; try discriminate. eauto. Qed.
  Lemma innerb_ok : forall k m, innerb k m = true -> regular m /\ int_named k m /\ tame m.
  Proof.
    induction k as [|k IH]; intros m H; cbn [innerb] in H; do 6 (apply andb_true_iff in H as [H ?]);
      pose proof (regularb_ok _ H) as R; pose proof (proj1 (rg_inv R)) as W; rewrite forallb_forall in H0.
    - split; auto. split.
      + split; [apply ints_ok; auto|]. intros x nd G. apply get_In in G. specialize (H0 _ G). cbn [snd] in H0.
        destruct (n_val nd) as [[d|q|ts|c w]|]; auto; discriminate.
      + constructor; [apply livelyb_ok; auto|apply one_valueb_ok; auto|apply bareb_ok; auto|eapply legsb_ok; eauto|].
        intros x q (nd & G & V). apply get_In in G. specialize (H0 _ G). cbn [snd] in H0. rewrite V in H0. discriminate.
    - split; auto. split.
      + split; [apply ints_ok; auto|]. intros x nd G. apply get_In in G. specialize (H0 _ G). cbn [snd] in H0.
        destruct (n_val nd) as [[d|q|ts|c w]|]; auto; [|discriminate]. apply IH in H0 as (A & B & _). split; auto.
      + constructor; [apply livelyb_ok; auto|apply one_valueb_ok; auto|apply bareb_ok; auto|eapply legsb_ok; eauto|].
        intros x q (nd & G & V). apply get_In in G. specialize (H0 _ G). cbn [snd] in H0. rewrite V in H0. apply IH in H0. apply H0.
  Qed.
  Definition heldb n x : bool := match get x (nodes n) with Some nd => match n_val nd with Some (VNet _) => true | _ => false end | None => false end.
  Definition baseb (k : nat) n : bool :=
    regularb n && forallb intb (keys (nodes n) ++ keys (edges n)) && livelyb n && one_valueb n && legsb k n &&
    forallb (fun p => match n_val (snd p) with Some (VView _ _) | None => false | _ => true end) (nodes n) &&
    holdb (innerb k) n.
  Definition clearb (k : nat) n : bool :=
    holdb (straightb k) n && forallb (fun e => (times e (opens n) <=? 1) || negb (heldb n e)) (opens n) ||
    (length (opens n) <=? 1) || forallb (fun p => negb (heldb n (fst p))) (edges n).
  Definition topb (k : nat) n : bool := baseb k n && clearb k n.
  Lemma fresh_int n e : (forall x, In x (keys (nodes n) ++ keys (edges n)) -> exists z, x = NI z) -> heldb n e = false -> fresh n e.
  Proof.
    intros Z H k _. split.
    - intros J. destruct (Z (delta_edge e k)) as (z & Q); [apply in_app_iff; auto|discriminate].
    - intros x m (nd & G & V) (r & Q). destruct (Z x) as (z & ->); [apply in_app_iff; left; eapply get_Some_key; eauto|].
      simpl in Q. injection Q as -> _. unfold heldb in H. rewrite G, V in H. discriminate.
  Qed.
  Lemma baseb_ok k n : baseb k n = true ->
    regular n /\ expandable (Datatypes.S k) n (keys (nodes n)) /\ tidy n (keys (nodes n)) /\
    forall x, In x (keys (nodes n) ++ keys (edges n)) -> exists z, x = NI z.
  Proof.
    unfold baseb. intros H. do 6 (apply andb_true_iff in H as [H ?]).
    pose proof (regularb_ok _ H) as R; pose proof (proj1 (rg_inv R)) as W. pose proof (@holdb_ok _ _ H0) as Hin.
    rewrite forallb_forall in H1. pose proof (ints_ok _ H5) as Z. split; auto. split; [|split; [|auto]].
    - apply int_named_expandable; auto. split; auto. intros x nd G. assert (I := get_In _ _ G). specialize (H1 _ I). cbn [snd] in H1.
      destruct (n_val nd) as [[d|q|ts|c w]|] eqn:V; auto; try discriminate. destruct (@innerb_ok k q) as (A & B & _); auto.
      apply (Hin x). exists nd; auto.
    - split; [apply livelyb_ok; auto|]. split; [apply one_valueb_ok; auto|]. split; [eapply legsb_ok; eauto|].
      intros x m _ Hx. apply (@innerb_ok k m). apply (Hin x); auto.
  Qed.
  Lemma clearb_ok k n : regular n -> (forall x, In x (keys (nodes n) ++ keys (edges n)) -> exists z, x = NI z) -> clearb k n = true -> unclashed n.
  Proof.
    intros R Z Un. pose proof (proj1 (rg_inv R)) as W. split.
    - intros x Ix. destruct (Z x) as (z & ->); [apply in_app_iff; auto|]. exists (NI z), []. split; auto. discriminate.
    - unfold clearb in Un. rewrite !orb_true_iff in Un. destruct Un as [[Un|Un]|Un].
      + left. apply andb_true_iff in Un as [U1 U2]. split; [intros x m Hx; apply (@straightb_ok k), (@holdb_ok _ _ U1 x m Hx)|].
        intros e L. apply fresh_int; auto. rewrite forallb_forall in U2. specialize (U2 e). 
        assert (Ie : In e (opens n)) by (apply times_In; lia). specialize (U2 Ie). apply orb_true_iff in U2 as [U2|U2].
        * apply Nat.leb_le in U2. lia.
        * apply negb_true_iff; auto.
      + right. intros e _ q Lq. apply Nat.leb_le in Un. lia.
      + right. intros e He. apply fresh_int; auto. rewrite forallb_forall in Un.
        assert (Ie : In e (keys (edges n))).
        { destruct He as [He|(x & nd & m & _ & G & _ & He)]; [apply (wf_opens W); auto|eapply (wf_legs W); eauto]. }
        destruct (key_get _ _ Ie) as (ed & Ge). apply negb_true_iff. exact (Un _ (get_In _ _ Ge)).
  Qed.
  Lemma topb_ok k n : topb k n = true ->
    regular n /\ expandable (Datatypes.S k) n (keys (nodes n)) /\ tidy n (keys (nodes n)) /\ unclashed n.
  Proof.
    unfold topb. intros H. apply andb_true_iff in H as [H U]. apply baseb_ok in H as (R & X & T & Z).
    split; auto. split; auto. split; auto. eapply clearb_ok; eauto.
  Qed.

  Fixpoint leavesb (f : tval -> bool) (k : nat) n : bool :=
    forallb (fun p => match n_val (snd p) with
                      | Some (VNet q) => match k with O => false | Datatypes.S k => leavesb f k q end
                      | Some (VView _ _) | None => true
                      | Some v => f v end) (nodes n).
  Lemma leavesb_ok f (P : tval -> Prop) : (forall v, f v = true -> P v) -> forall k n, leavesb f k n = true -> forall v, leaf n v -> P v.
  Proof.
    intros Hf. induction k as [|k IH]; intros n H v Hv; cbn [leavesb] in H; rewrite forallb_forall in H.
    - destruct Hv as [x nd G V Pl|x m (nd & G & V) Hv]; apply get_In in G; specialize (H _ G); cbn [snd] in H; rewrite V in H.
      + destruct v; auto; destruct Pl.
      + discriminate.
    - destruct Hv as [x nd G V Pl|x m (nd & G & V) Hv]; apply get_In in G; specialize (H _ G); cbn [snd] in H; rewrite V in H.
      + destruct v; auto; destruct Pl.
      + eapply IH; eauto.
  Qed.
  Fixpoint ints (sh : list (option nat)) : option (list nat) :=
    match sh with
    | [] => Some []
    | Some d :: r => match ints r with Some l => Some (d :: l) | None => None end
    | None :: _ => None
    end.
  Fixpoint wellb (k : nat) v : bool :=
    match k with
    | O => false
    | Datatypes.S k =>
        match v with
        | VTensor o => some o
        | VView _ w => wellb k w
        | VSum l => forallb (fun p => wellb k (snd p)) l &&
                    match l with
                    | [] => false
                    | p :: _ => match tval_shape (snd p) with
                                | Some sh => match ints sh with
                                             | Some dims => forallb (fun q => eqb (tval_shape (snd q)) (Some (map Some dims))) l
                                             | None => false end
                                | None => false end
                    end
        | VNet n => topb k n && leavesb (wellb k) k n
        end
    end.
  Theorem wellb_ok : forall k v, wellb k v = true -> well v.
  Proof.
    induction k as [|k IH]; intros v H; [discriminate|]. destruct v as [[d|]|n|l|f w]; cbn [wellb] in H.
    - constructor.
    - discriminate.
    - apply andb_true_iff in H as [A B]. apply topb_ok in A as (R & X & T & U).
      apply well_net with (k := Datatypes.S k); auto; [eapply tidy_sound; eauto|]. eapply leavesb_ok; eauto.
    - apply andb_true_iff in H as [A B]. rewrite forallb_forall in A. destruct l as [|p l]; [discriminate|].
      destruct (tval_shape (snd p)) as [sh|]; [|discriminate]. destruct (ints sh) as [dims|]; [|discriminate].
      rewrite forallb_forall in B. apply well_sum with (dims := dims); [discriminate| |].
      + intros q Iq. apply IH. auto.
      + intros q Iq. exact (proj1 (eqb_eq _ _) (B q Iq)).
    - constructor. auto.
  Qed.
  Theorem wellb_no_hash v n : inside v n -> forall k, wellb k v = true -> no_hash n.
  Proof.
    induction 1 as [n|n v m L _ IH|l p m Ip _ IH|f v m _ IH]; intros [|k] H; try discriminate; cbn [wellb] in H.
    - apply andb_true_iff in H as [H _]. unfold topb in H. apply andb_true_iff in H as [H _]. apply baseb_ok in H as (_ & _ & _ & Z).
      intros x Ix. destruct (Z x) as (z & ->); [apply in_app_iff; auto|]. exists (NI z), []. split; auto. discriminate.
    - apply andb_true_iff in H as [_ H]. apply (IH k). exact (@leavesb_ok (wellb k) (fun v => wellb k v = true) (fun _ Q => Q) k n H v L).
    - apply andb_true_iff in H as [H _]. rewrite forallb_forall in H. apply (IH k). apply (H p Ip).
    - apply (IH k). exact H.
  Qed.
End Check.
