(** The conditions on fixed and on unattached edges: the stronger implies the weaker, and what it gives after expanding. *)
From Verif Require Import Base Scalar NetSpec Sums NetAlg ModelArray ModelTN TNInv TNOps TNSpec TNMerge TNDelta TNValue
  TNValue2 TNExact ModelVal OpsProofs ModelNest NestSpec NestSub NestEnc NestJoin NestExp.
Set Implicit Arguments.

Lemma ex_values : forall (vs : list nat) (l : list name), NoDup l -> length l = length vs -> exists h : name -> nat, map h l = vs.
Proof.
  induction vs as [|v vs IH]; intros [|a l] ND L; try discriminate; [exists (fun _ => 0); auto|].
  inversion ND as [|? ? Na ND']; subst. destruct (IH l ND') as (h & Q); [simpl in L; lia|].
  exists (fun e => if eqb e a then v else h e). simpl. rewrite eqb_refl. f_equal. rewrite <- Q. apply map_ext_in.
  intros e Ie. destruct (eqb_spec e a) as [->|]; auto. tauto.
Qed.
Lemma same_const : forall (la lb : list name), length la = length lb -> map (fun _ => 0) lb = map (fun _ => 0) la.
Proof. induction la as [|a la IH]; intros [|b lb] L; try discriminate; auto. simpl. f_equal. apply IH. simpl in L. lia. Qed.
Section Sound.
  Context {S : scalar}.
  Notation tval := (tval S).
  Notation net := (tn tval).
  Implicit Types (n m : net) (e x y : name).

  (** *** nothing in a tame network is dead *)
  Lemma leg_partner (P Q : name -> Prop) la lb e : Forall2 (fun e o => P e <-> Q o) la lb -> In e la -> P e -> exists o, In o lb /\ Q o.
  Proof.
    induction 1 as [|a b la lb H1 H2 IH]; intros I Pe; [destruct I|]. destruct I as [->|I].
    - exists b. split; [simpl; auto|tauto].
    - destruct IH as (o & Io & Qo); auto. exists o. simpl; auto.
  Qed.
  Lemma leg_partner' (P Q : name -> Prop) la lb o : Forall2 (fun e o => P e <-> Q o) la lb -> In o lb -> Q o -> exists e, In e la /\ P e.
  Proof.
    induction 1 as [|a b la lb H1 H2 IH]; intros I Pe; [destruct I|]. destruct I as [->|I].
    - exists a. split; [simpl; auto|tauto].
    - destruct IH as (q & Io & Qo); auto. exists q. simpl; auto.
  Qed.
  Lemma tame_not_dead n : tame n -> forall P, dead P n -> forall e, ~ P e.
  Proof.
    induction 1 as [n Lv Ov Bo Nl Tm IH]. intros P [D1 D2 D3] e Pe.
    destruct (D1 e Pe) as [Ie Fe]. destruct (key_get _ _ Ie) as (ed & Ge).
    assert (A : exists x, attached n x e).
    { destruct (Lv e ed Ge) as [J|[J|J]]; auto; [apply Bo; auto|]. exfalso. unfold is_fixed in Fe. rewrite Ge in Fe. destruct (e_fix ed); congruence. }
    destruct A as (x & nd & G & I). destruct (n_val nd) as [[d|m|ts|c v]|] eqn:V.
    2:{ destruct (D3 x nd m G V) as (Q & DQ & F2). destruct (@leg_partner P Q _ _ e F2 I Pe) as (o & _ & Qo).
        apply (IH x m) with (P := Q) (e := o); auto. exists nd; auto. }
    all: apply (D2 x nd e G) in I; auto; rewrite V; intros ?; discriminate.
  Qed.
  Lemma tame_live n : tame n -> live n.
  Proof.
    intros T. pose proof (tame_not_dead T) as N. induction T as [n Lv Ov Bo Nl Tm IH]. constructor.
    - intros P D e Pe. destruct (N P D e Pe).
    - intros x m Hx. apply (IH x m Hx). apply tame_not_dead. apply (Tm x m Hx).
  Qed.

  (** *** values *)
  (** the value an edge is fixed to, or else [h] *)
  Definition fixval n (h : name -> nat) e : nat :=
    match get e (edges n) with Some ed => match e_fix ed with Some (v :: _) => v | _ => h e end | None => h e end.
  Lemma fixval_free n h e : is_fixed n e = false -> fixval n h e = h e.
  Proof. unfold is_fixed, fixval. destruct (get e (edges n)) as [ed|]; auto. destruct (e_fix ed); auto. discriminate. Qed.
  Lemma fixval_fixed n h s : one_value n -> (s = true -> bare_opens n) -> fixed_as s (fixval n h) n.
  Proof.
    intros Ov Bo e ed fx G F Hs. assert (No : ~ In e (opens n)).
    { destruct Hs as [Hs|]; auto. intros J. destruct (Bo Hs e J) as [Q _]. unfold is_fixed in Q. rewrite G, F in Q. discriminate. }
    destruct (Ov e ed fx G F No) as (v & ->). unfold fixval. rewrite G, F. auto.
  Qed.
  Lemma legs_opens n x nd m : regular n -> get x (nodes n) = Some nd -> n_val nd = Some (VNet m) -> length (n_legs nd) = length (opens m).
  Proof.
    intros R G V. destruct (rg_sized R x G) as (t & Et & Sh & _). rewrite V in Et. injection Et as <-. simpl in Sh. injection Sh as Sh.
    apply (f_equal (@length _)) in Sh. rewrite !map_length in Sh. auto.
  Qed.
  Lemma expandable_inner k n x m : expandable k n (keys (nodes n)) -> held n x m -> exists k', regular m /\ expandable k' m (keys (nodes m)).
  Proof.
    intros X (nd & G & V). assert (Ix : In x (keys (nodes n))) by (eapply get_Some_key; eauto).
    destruct k; destruct X as (_ & _ & X); specialize (X x nd Ix G); rewrite V in X; [destruct X|]. exists k. tauto.
  Qed.
  Lemma straight_valued n : tame n -> forall k, regular n -> expandable k n (keys (nodes n)) -> straight n ->
    forall vs, length vs = length (opens n) -> exists g, valued g n /\ map g (opens n) = vs.
  Proof.
    induction 1 as [n Lv Ov Bo Nl Tm IH]. intros k R X [ND St] vs L.
    destruct (ex_values vs ND) as (h & Qh); [lia|]. exists (fixval n h). split.
    - constructor; [apply fixval_fixed; auto|]. intros x nd m G V. assert (Hx : held n x m) by (exists nd; auto).
      destruct (expandable_inner k X Hx) as (k' & Rm & Xm). apply (IH x m Hx k' Rm Xm (St x m Hx)).
      rewrite map_length. exact (@legs_opens n x nd m R G V).
    - rewrite <- Qh. apply map_ext_in. intros e Ie. apply fixval_free. apply (Bo e Ie).
  Qed.
  Lemma zero_valued n : tame n -> forall k, regular n -> expandable k n (keys (nodes n)) ->
    exists g, valued g n /\ forall e, In e (opens n) -> g e = 0.
  Proof.
    induction 1 as [n Lv Ov Bo Nl Tm IH]. intros k R X. exists (fixval n (fun _ => 0)). split.
    - constructor; [apply fixval_fixed; auto|]. intros x nd m G V. assert (Hx : held n x m) by (exists nd; auto).
      destruct (expandable_inner k X Hx) as (k' & Rm & Xm). assert (Ln := @legs_opens n x nd m R G V).
      destruct (Nl x nd m) as [St|Nf]; auto; [eapply get_Some_key; eauto| |].
      + apply (straight_valued (Tm x m Hx) k' Rm Xm St). rewrite map_length. auto.
      + destruct (IH x m Hx k' Rm Xm) as (g & Vg & Qg). exists g. split; auto.
        rewrite (map_ext_in _ (fun _ => 0) (n_legs nd)) by (intros e Ie; apply fixval_free; auto).
        rewrite (map_ext_in g (fun _ => 0) (opens m)) by auto. apply same_const; auto.
    - intros e Ie. apply fixval_free. apply (Bo e Ie).
  Qed.
  Lemma tidy_sound k n : regular n -> expandable k n (keys (nodes n)) -> tidy n (keys (nodes n)) -> sound n (keys (nodes n)).
  Proof.
    intros R X (Lv & Ov & Nl & Tm). split; [|split].
    - left. exists (fixval n (fun _ => 0)). split; [apply fixval_fixed; auto; discriminate|]. intros x nd m Ix G V. assert (Hx : held n x m) by (exists nd; auto).
      destruct (expandable_inner k X Hx) as (k' & Rm & Xm). assert (Ln := @legs_opens n x nd m R G V).
      destruct (Nl x nd m) as [St|Nf]; auto.
      + apply (straight_valued (Tm x m Ix Hx) k' Rm Xm St). rewrite map_length. auto.
      + destruct (zero_valued (Tm x m Ix Hx) k' Rm Xm) as (g & Vg & Qg). exists g. split; auto.
        rewrite (map_ext_in _ (fun _ => 0) (n_legs nd)) by (intros e Ie; apply fixval_free; auto).
        rewrite (map_ext_in g (fun _ => 0) (opens m)) by auto. apply same_const; auto.
    - intros P (D1 & D2 & D3) e Pe. destruct (D1 e Pe) as [Ie Fe]. destruct (key_get _ _ Ie) as (ed & Ge).
      destruct (Lv e ed Ge) as [J|[J|(x & nd & G & I)]]; [eauto| |].
      + exfalso. unfold is_fixed in Fe. rewrite Ge in Fe. destruct (e_fix ed); congruence.
      + exfalso. assert (Ix : In x (keys (nodes n))) by (eapply get_Some_key; eauto). destruct (n_val nd) as [[d|m|ts|c v]|] eqn:V.
        2:{ destruct (D3 x nd m Ix G V) as (Q & DQ & F2). destruct (@leg_partner P Q _ _ e F2 I Pe) as (o & _ & Qo).
            assert (Hx : held n x m) by (exists nd; auto). apply (tame_not_dead (Tm x m Ix Hx) DQ) in Qo; auto. }
        all: apply (D2 x nd e G) in I; auto; right; rewrite V; intros ?; discriminate.
    - intros x m Ix Hx. apply tame_live, (Tm x); auto.
  Qed.

  (** *** after expanding *)
  Lemma sound_expanded n n1 : sound n (keys (nodes n)) -> expanded (copy_tn n) (keys (nodes n)) n1 -> lively n1 /\ (one_value n1 \/ few n).
  Proof.
    intros (Vf & Dd & Lv) X. split.
    - intros e ed Ge. destruct (mem_spec e (opens n1)) as [I|I]; auto. right.
      destruct (e_fix ed) as [fx|] eqn:Fx; [left; discriminate|]. right.
      destruct (existsb (fun x => match get x (nodes n1) with Some nd => mem e (n_legs nd) | None => false end) (keys (nodes n1))) eqn:Ex.
      + apply existsb_exists in Ex as (x & Ix & Q). destruct (get x (nodes n1)) as [nd|] eqn:G; [|discriminate]. exists x, nd. split; auto. apply mem_In; auto.
      + exfalso. assert (De : dead_on [] (eq e) n1).
        { split; [|split; [|intros ? ? ? []]].
          - intros a <-. split; [eapply get_Some_key; eauto|]. unfold is_fixed. rewrite Ge, Fx. auto.
          - intros x nd a G _ Ia <-. assert (Q : existsb (fun x => match get x (nodes n1) with Some nd => mem e (n_legs nd) | None => false end) (keys (nodes n1)) = true); [|congruence].
            apply existsb_exists. exists x. split; [eapply get_Some_key; eauto|]. rewrite G. apply mem_In; auto. }
        destruct (xp_dead X (l' := []) (P' := eq e)) as (P & DP & F2 & Ne); [intros y []|exact De|]. rewrite app_nil_r in DP.
        destruct Ne as (a & Pa); [intros x m Ix Hx; apply (Lv x m Ix); exact Hx|eauto|].
        destruct (Dd P DP a Pa) as (o & Po & Io). change (opens (copy_tn n)) with (opens n) in F2.
        destruct (@leg_partner P (eq e) _ _ o F2 Io Po) as (q & Iq & <-). auto.
    - destruct Vf as [(f & Vf)|Fw]; [left|right; exact Fw]. destruct (@xp_valued _ _ _ _ X false [] f) as (f1 & [F1 _] & _); [intros y []|rewrite app_nil_r; exact Vf|].
      intros e ed fx G F No. exists (f1 e). apply (F1 e ed); auto.
  Qed.
End Sound.
