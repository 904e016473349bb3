(** Values that contract: arrays, and networks of such values. *)
From Verif Require Import Base Scalar NetSpec Sums NetAlg ModelArray ModelTN TNInv TNOps TNSpec TNMerge TNDelta TNValue
  TNValue2 TNExact ModelVal ModelOps OpsSpec OpsProofs OpsValue ModelNest NestSpec NestExp NestSound ModelContract ModelDeep DeepSpec.
Set Implicit Arguments.
Local Open Scope nat_scope.

Lemma Forall2_combine {X Y} (R : X -> Y -> Prop) (ins : list bool) : forall la lb b o, Forall2 R la lb -> In (b, o) (combine ins lb) ->
  exists e, In (b, e) (combine ins la) /\ R e o.
Proof.
  induction ins as [|i ins IH]; intros la lb b o F I; [destruct I|]. destruct F as [|x y la lb H1 H2]; [destruct I|].
  destruct I as [I|I]; [injection I as -> ->; exists x; simpl; auto|]. destruct (IH _ _ _ _ H2 I) as (e & J & Q). exists e. simpl; auto.
Qed.
Section Core.
  Context {S : scalar}.
  Notation tval := (tval S).
  Notation net := (tn tval).
  Implicit Types (n m : net) (e x y : name) (v w : tval).

  Inductive core : tval -> Prop :=
  | core_tensor d : core (VTensor (Some d))
  | core_net n : regular n -> distinct n -> separate n (keys (nodes n)) ->
      (forall a b, net_leg n (keys (nodes n)) a -> net_leg n (keys (nodes n)) b -> exists r, name_lt a b = Ok r) ->
      (forall P, dead P n -> forall e, P e -> exists o, P o /\ In o (opens n)) ->
      (forall x nd v, get x (nodes n) = Some nd -> n_val nd = Some v -> core v) -> core (VNet n).
  (** no edge is fixed to more than one value, at any depth *)
  Definition fix_one n : Prop := forall e ed fx, get e (edges n) = Some ed -> e_fix ed = Some fx -> length fx <= 1.
  Inductive thin : tval -> Prop :=
  | thin_tensor d : thin (VTensor d)
  | thin_net n : fix_one n -> (forall x nd v, get x (nodes n) = Some nd -> n_val nd = Some v -> thin v) -> thin (VNet n).
  Lemma no_fixes_one n : no_fixes n -> fix_one n.
  Proof. intros H e ed fx G F. specialize (H e). unfold is_fixed in H. rewrite G, F in H. discriminate. Qed.
  (** a set of joined edges contains an open edge marked [true] *)
  Definition grounded (ins : list bool) v : Prop :=
    match v with
    | VNet n => forall P, dead P n -> forall e, P e -> exists o, P o /\ In (true, o) (combine ins (opens n))
    | _ => True
    end.

  Lemma core_inner n x m : core (VNet n) -> held n x m -> core (VNet m).
  Proof. intros C (nd & G & V). inversion C as [|? R D Sp So Lv Inn]; subst. eauto. Qed.
  Lemma depth n (l : list name) : (forall x m, In x l -> held n x m -> exists k, expandable k m (keys (nodes m))) ->
    exists K, forall x m, In x l -> held n x m -> expandable K m (keys (nodes m)).
  Proof.
    induction l as [|x l IH]; intros H; [exists 0; intros ? ? []|]. destruct IH as (K & HK); [intros; eapply H; simpl; eauto|].
    destruct (get x (nodes n)) as [nd|] eqn:G.
    2:{ exists K. intros y m [<-|I] Hy; [|eauto]. destruct Hy as (nd & G' & _). congruence. }
    destruct (n_val nd) as [v|] eqn:V; [destruct v as [d|m|ts|c v]|].
    2:{ destruct (H x m) as (k & Hk); [simpl; auto|exists nd; auto|]. exists (max k K). intros y q [<-|I] Hy.
        - assert (q = m) as -> by (destruct Hy as (nd' & G' & V'); congruence). eapply expandable_le; [|exact Hk]. lia.
        - eapply expandable_le; [|apply (HK y); auto]. lia. }
    all: exists K; intros y m [<-|I] Hy; [|eauto]; destruct Hy as (nd' & G' & V'); congruence.
  Qed.
  Lemma core_expandable v : core v -> forall n, v = VNet n -> exists k, expandable k n (keys (nodes n)).
  Proof.
    induction 1 as [|n R D Sp So Lv Inn IH]; intros n0 Q; [discriminate|]. injection Q as <-.
    destruct (@depth n (keys (nodes n))) as (K & HK).
    { intros x m _ (nd & G & V). apply (IH x nd _ G V); auto. }
    exists (Datatypes.S K). split; [exact Sp|]. split; [exists (keys (nodes n)); split; auto|]. intros x nd Ix G. destruct (n_val nd) as [v|] eqn:V; auto.
    pose proof (Inn x nd v G V) as Cv. destruct Cv as [d|m Rm Dm ? ? ? ?]; auto. split; auto. split; auto. apply (HK x); auto. exists nd; auto.
  Qed.
  Lemma core_live v : core v -> forall n, v = VNet n -> live n.
  Proof.
    induction 1 as [|n R D Sp So Lv Inn IH]; intros n0 Q; [discriminate|]. injection Q as <-. constructor; auto.
    intros x m (nd & G & V). apply (IH x nd _ G V); auto.
  Qed.
  Lemma core_leaf n v : leaf n v -> core (VNet n) -> exists d, v = VTensor (Some d).
  Proof.
    induction 1 as [n v x nd G V P|n m v x Hx L IH]; intros C.
    - inversion C as [|? R D Sp So Lv Inn]; subst. pose proof (Inn _ _ _ G V) as Cv. destruct Cv; eauto. destruct P.
    - apply IH. eapply core_inner; eauto.
  Qed.
  Lemma core_well n : core (VNet n) -> unclashed n -> few n -> well (VNet n).
  Proof.
    intros C U F. destruct (core_expandable C eq_refl) as (k & X). pose proof (core_live C eq_refl) as L.
    inversion C as [|? R D Sp So Lv Inn]; subst. apply well_net with (k := k); auto.
    - split; [|split].
      + right. exact F.
      + intros P (D1 & D2 & D3). apply Lv. constructor; auto.
        * intros x nd e G N. apply (D2 x nd e G); auto.
        * intros x nd m G. apply (D3 x); auto. eapply get_Some_key; eauto.
      + intros x m _ Hx. destruct L as [_ L]. eauto.
    - intros v Hv. destruct (core_leaf Hv C) as (d & ->). constructor.
  Qed.
  Lemma core_few v : core v -> thin v -> forall n, v = VNet n -> few n.
  Proof.
    induction 1 as [|n R D Sp So Lv Inn IH]; intros T n0 Q; [discriminate|]. injection Q as <-. inversion T as [|? Nf Ni]; subst.
    pose proof (proj1 (rg_inv R)) as W. constructor.
    - intros e ed fx I. apply (Nf e). apply In_get; auto. apply (wf_edges W).
    - intros x nd m I V. assert (G : get x (nodes n) = Some nd) by (apply In_get; auto; apply (wf_nodes W)). apply (IH x nd _ G V); eauto.
  Qed.

  (** an edge of a dead set at a node leads to an edge at a marked place of the node *)
  Lemma grounded_leg n P x nd v ins e : dead P n -> get x (nodes n) = Some nd -> n_val nd = Some v -> grounded ins v ->
    In e (n_legs nd) -> P e -> exists e', P e' /\ In (true, e') (combine ins (n_legs nd)).
  Proof.
    intros [D1 D2 D3] G V Gr I Pe. destruct v as [d|m|ts|c v].
    2:{ destruct (D3 x nd m G V) as (Q & DQ & F2). destruct (@leg_partner P Q _ _ e F2 I Pe) as (o & _ & Qo).
        destruct (Gr Q DQ o Qo) as (o' & Qo' & I'). destruct (Forall2_combine _ _ _ F2 I') as (e' & J & PQ). exists e'. split; auto. tauto. }
    all: exfalso; eapply (D2 x nd e G); eauto; intros m; rewrite V; discriminate.
  Qed.

  (** *** conjugates *)
  Lemma conj_nodes : forall (l q : list (name * node tval)),
    (fix go (l : list (name * node tval)) :=
       match l with
       | [] => Ok []
       | (k, Node legs mut o) :: r =>
           match o with
           | None => Err KeyError
           | Some t => do u <- v_conj t; do p <- go r; Ok ((k, Node legs mut (Some u)) :: p)
           end
       end) l = Ok q ->
    keys q = keys l /\
    (forall x nd', get x q = Some nd' -> exists nd (y y' : tval), get x l = Some nd /\ n_val nd = Some y /\ v_conj y = Ok y' /\
       n_legs nd' = n_legs nd /\ n_val nd' = Some y') /\
    (forall x nd, get x l = Some nd -> exists nd' (y y' : tval), get x q = Some nd' /\ n_val nd = Some y /\ v_conj y = Ok y' /\
       n_legs nd' = n_legs nd /\ n_val nd' = Some y').
  Proof.
    induction l as [|[k [legs mut [x|]]] l IH]; intros q E; [injection E as <-; repeat split; auto; intros ? ? ?; discriminate| |discriminate].
    destruct (v_conj x) as [y|] eqn:Ex; [|discriminate]. cbn [bind] in E.
    match type of E with (bind ?m _) = _ => destruct m as [w|] eqn:Ew; [|discriminate] end. injection E as <-.
    destruct (IH w eq_refl) as (K & A & B). split; [simpl; f_equal; auto|]. split; intros z ndz; simpl; destruct (eqb z k); eauto; intros Q; injection Q as <-;
      do 3 eexists; repeat split; simpl; eauto.
  Qed.
  Lemma conj_core v : forall v', v_conj v = Ok v' -> core v ->
    core v' /\ (thin v -> thin v') /\
    match v, v' with
    | VNet n, VNet n' => opens n' = opens n /\ forall P, dead P n' -> dead P n
    | VTensor _, VTensor _ => True
    | _, _ => False
    end.
  Proof.
    induction v as [d|n IH|l IH|f v IH] using tval_ind'; intros v' E C; [| |inversion C|inversion C].
    - inversion C; subst. injection E as <-. split; [constructor|]. split; auto. constructor.
    - cbn in E. match type of E with (bind ?m _) = _ => destruct m as [q|] eqn:Eq; [|discriminate] end. injection E as <-.
      destruct (conj_nodes (nodes n) Eq) as (K & A & B). inversion C as [|? R D Sp So Lv Inn]; subst.
      set (n' := TN q (edges n) (adj n) (opens n) 0).
      assert (Hin : forall x nd (y y' : tval), get x (nodes n) = Some nd -> n_val nd = Some y -> v_conj y = Ok y' ->
        core y /\ core y' /\ (thin y -> thin y') /\ tval_shape y' = tval_shape y /\
        match y, y' with VNet n, VNet n' => opens n' = opens n /\ forall P, dead P n' -> dead P n | VTensor _, VTensor _ => True | _, _ => False end).
      { intros x nd y y' G V Ey. pose proof (Inn x nd y G V) as Cy.
        destruct (IH x nd y (get_In _ _ G) V y' Ey Cy) as (U1 & U2 & U3). repeat split; auto. apply (v_conj_value _ Ey). }
      assert (Held : forall x m', held n' x m' -> exists m, held n x m).
      { intros x m' (nd' & G' & V'). destruct (A x nd' G') as (nd & y & y' & G & V & Ey & Ql & Qv). rewrite V' in Qv. injection Qv as <-.
        destruct (Hin x nd y _ G V Ey) as (_ & _ & _ & _ & M). destruct y as [| m | |]; try tauto. exists m, nd. auto. }
      destruct R as [[[W1 W2 W3 W4 W5 W6 W7] Nn] FN Sz Os].
      assert (R' : regular n').
      { constructor; [split; [constructor|exact Nn]|exact FN| |exact Os]; cbn [n' nodes edges adj opens]; auto.
        - rewrite K; auto.
        - intros x nd' e G' I. destruct (A x nd' G') as (nd & y & y' & G & V & Ey & Ql & Qv). rewrite Ql in I. eauto.
        - intros x e. rewrite W4. split; intros (nd0 & G0 & I0).
          + destruct (B x nd0 G0) as (nd' & y & y' & G & V & Ey & Ql & Qv). exists nd'. rewrite Ql. auto.
          + destruct (A x nd0 G0) as (nd & y & y' & G & V & Ey & Ql & Qv). exists nd. rewrite <- Ql. auto.
        - intros x nd' G'. destruct (A x nd' G') as (nd & y & y' & G & V & Ey & Ql & Qv). destruct (Sz x nd G) as (t & Et & Sh & Kn).
          rewrite V in Et. injection Et as <-. exists y'. split; auto. rewrite Ql. split; [|exact Kn].
          destruct (Hin x nd y y' G V Ey) as (_ & _ & _ & Q & _). rewrite Q. exact Sh. }
      assert (Dd : forall P, dead P n' -> dead P n).
      { intros P [D1 D2 D3]. constructor; [exact D1| |].
        - intros x nd e G Nv. destruct (B x nd G) as (nd' & y & y' & G' & V & Ey & Ql & Qv). rewrite <- Ql. apply (D2 x nd' e G').
          intros m' Q. rewrite Qv in Q. injection Q as ->. destruct (Hin x nd y _ G V Ey) as (_ & _ & _ & _ & M). destruct y as [| m | |]; try tauto.
          apply (Nv m); auto.
        - intros x nd m G V. destruct (B x nd G) as (nd' & y & y' & G' & V' & Ey & Ql & Qv). rewrite V in V'. injection V' as <-.
          destruct (Hin x nd _ y' G V Ey) as (_ & _ & _ & _ & M). destruct y' as [| m' | |]; try tauto. destruct M as [Mo Md].
          destruct (D3 x nd' m' G' Qv) as (Q & DQ & F2). exists Q. split; auto. rewrite Ql, Mo in F2. exact F2. }
      split; [|split; [|split; auto]].
      + constructor; auto.
        * destruct D as (D1 & D2 & D3 & D4). repeat split; cbn [n' nodes edges]; rewrite ?K; auto.
        * intros x m' Ix Hx. destruct (Held x m' Hx) as (m & Hm). cbn [n' nodes edges] in *. rewrite K in *. apply (Sp x m); auto.
        * intros a b Ha Hb.
          assert (HL : forall a, net_leg n' (keys (nodes n')) a -> net_leg n (keys (nodes n)) a).
          { intros c (x & nd' & m' & Ix & G' & V' & I). destruct (A x nd' G') as (nd & y & y' & G & V & Ey & Ql & Qv).
            rewrite V' in Qv. injection Qv as <-. destruct (Hin x nd y _ G V Ey) as (_ & _ & _ & _ & M). destruct y as [| m | |]; try tauto.
            exists x, nd, m. rewrite <- Ql. repeat split; auto. eapply get_Some_key; eauto. }
          apply So; auto.
        * intros P DP. apply (Lv P); auto.
        * intros x nd' y' G' V'. destruct (A x nd' G') as (nd & y & y2 & G & V & Ey & Ql & Qv). rewrite V' in Qv. injection Qv as <-.
          apply (Hin x nd y y' G V Ey).
      + intros N. inversion N as [|? Nf Ni]; subst. constructor; [exact Nf|]. intros x nd' y' G' V'. destruct (A x nd' G') as (nd & y & y2 & G & V & Ey & Ql & Qv).
        rewrite V' in Qv. injection Qv as <-. apply (Hin x nd y y' G V Ey). eauto.
  Qed.
End Core.
