(** Algebra of the finite sums of [NetSpec]. *)
From Verif Require Import Base Scalar NetSpec.
Set Implicit Arguments.
Open Scope K_scope.

Section SumsK.
  Context {S : scalar}.
  Add Ring KringS : (kring S).
  Implicit Types (X Y : Type).

  Lemma sumf_ext X (f g : X -> S) l : (forall x, In x l -> f x = g x) -> sumf f l = sumf g l.
  Proof.
    induction l as [|x r IH]; simpl; intros E; auto. rewrite E, IH; auto.
  Qed.
  Lemma sumf_zero X (l : list X) : sumf (fun _ => 0 : S) l = 0.
  Proof. induction l as [|x r IH]; simpl; auto. rewrite IH; ring. Qed.
  Lemma sumf_0 X (f : X -> S) (l : list X) : (forall x, In x l -> f x = 0) -> sumf f l = 0.
  Proof. intros E. rewrite (sumf_ext _ (fun _ => 0) _ E). apply sumf_zero. Qed.
  Lemma sumf_add X (f g : X -> S) l : sumf (fun x => f x + g x) l = sumf f l + sumf g l.
  Proof. induction l as [|x r IH]; simpl; [ring|]. rewrite IH; ring. Qed.
  Lemma sumf_mul_l X (c : S) (f : X -> S) l : sumf (fun x => c * f x) l = c * sumf f l.
  Proof. induction l as [|x r IH]; simpl; [ring|]. rewrite IH; ring. Qed.
  Lemma sumf_mul_r X (c : S) (f : X -> S) l : sumf (fun x => f x * c) l = sumf f l * c.
  Proof. induction l as [|x r IH]; simpl; [ring|]. rewrite IH; ring. Qed.
  Lemma sumf_app X (f : X -> S) l m : sumf f (l ++ m) = sumf f l + sumf f m.
  Proof. induction l as [|x r IH]; simpl; [ring|]. rewrite IH; ring. Qed.
  Lemma sumf_map X Y (g : X -> Y) (f : Y -> S) l : sumf f (map g l) = sumf (fun x => f (g x)) l.
  Proof. induction l as [|x r IH]; simpl; auto. rewrite IH; auto. Qed.
  Lemma sumf_concat_map X Y (g : X -> list Y) (f : Y -> S) l :
    sumf f (concat (map g l)) = sumf (fun x => sumf f (g x)) l.
  Proof. induction l as [|x r IH]; simpl; auto. rewrite sumf_app, IH; auto. Qed.
  Lemma sumf_swap X Y (f : X -> Y -> S) l m :
    sumf (fun x => sumf (fun y => f x y) m) l = sumf (fun y => sumf (fun x => f x y) l) m.
  Proof.
    induction l as [|x r IH]; simpl; [rewrite sumf_zero; auto|].
    rewrite IH, sumf_add; auto.
  Qed.
  Lemma sumf_perm X (f : X -> S) l m : Permutation l m -> sumf f l = sumf f m.
  Proof.
    induction 1; simpl; auto; try congruence; try ring.
  Qed.
  Lemma sumf_delta X (p : X -> bool) (f : X -> S) l :
    sumf (fun x => kdelta (p x) * f x) l = sumf f (filter p l).
  Proof.
    induction l as [|x r IH]; simpl; auto. rewrite IH. destruct (p x); simpl; ring.
  Qed.
  Lemma sumf_pin X `{Eqb X} (f : X -> S) v l :
    NoDup l -> sumf (fun x => kdelta (eqb x v) * f x) l = kdelta (mem v l) * f v.
  Proof.
    induction 1 as [|x r N ND IH]; [simpl; ring|]. cbn [sumf]. rewrite IH.
    change (mem v (x :: r)) with (eqb v x || mem v r). rewrite (eqb_sym v x).
    destruct (eqb_spec x v) as [->|N'].
    - apply mem_false in N. rewrite N. simpl; ring.
    - simpl. ring.
  Qed.
  Lemma sumf_const X (c : S) (l : list X) : sumf (fun _ => c) l = knat S (length l) * c.
  Proof. induction l as [|x r IH]; simpl; [ring|]. rewrite IH; ring. Qed.
  Lemma sumf_conj X (f : X -> S) l : kconj (sumf f l) = sumf (fun x => kconj (f x)) l.
  Proof. induction l as [|x r IH]; simpl; [apply kconj_0|]. rewrite kconj_add, IH; auto. Qed.
  Lemma sumf_opp X (f : X -> S) l : sumf (fun x => - f x) l = - sumf f l.
  Proof. induction l as [|x r IH]; simpl; [ring|]. rewrite IH; ring. Qed.

  Lemma prodf_ext X (f g : X -> S) l : (forall x, In x l -> f x = g x) -> prodf f l = prodf g l.
  Proof.
    induction l as [|x r IH]; simpl; intros E; auto. rewrite E, IH; auto.
  Qed.
  Lemma prodf_app X (f : X -> S) l m : prodf f (l ++ m) = prodf f l * prodf f m.
  Proof. induction l as [|x r IH]; simpl; [ring|]. rewrite IH; ring. Qed.
  Lemma prodf_map X Y (g : X -> Y) (f : Y -> S) l : prodf f (map g l) = prodf (fun x => f (g x)) l.
  Proof. induction l as [|x r IH]; simpl; auto. rewrite IH; auto. Qed.
  Lemma prodf_mul X (f g : X -> S) l : prodf (fun x => f x * g x) l = prodf f l * prodf g l.
  Proof. induction l as [|x r IH]; simpl; [ring|]. rewrite IH; ring. Qed.
  Lemma prodf_perm X (f : X -> S) l m : Permutation l m -> prodf f l = prodf f m.
  Proof.
    induction 1; simpl; auto; try congruence; try ring.
  Qed.
  Lemma prodf_one X (l : list X) : prodf (fun _ => 1 : S) l = 1.
  Proof. induction l as [|x r IH]; simpl; auto. rewrite IH; ring. Qed.
  Lemma prodf_conj X (f : X -> S) l : kconj (prodf f l) = prodf (fun x => kconj (f x)) l.
  Proof. induction l as [|x r IH]; simpl; [apply kconj_1|]. rewrite kconj_mul, IH; auto. Qed.
  Lemma prodf_zero X (f : X -> S) l x : In x l -> f x = 0 -> prodf f l = 0.
  Proof.
    induction l as [|y r IH]; simpl; [tauto|]. intros [->|I] E.
    - rewrite E; ring.
    - rewrite IH; auto; ring.
  Qed.
  Lemma prodf_delta X (p : X -> bool) l :
    prodf (fun x => kdelta (p x) : S) l = kdelta (forallb p l).
  Proof. induction l as [|x r IH]; simpl; auto. rewrite IH, kdelta_andb; auto. Qed.

  Section Env.
    Context {A : Type} `{Eqb A}.
    Notation env := (env (A := A)).
    Implicit Types (s : env) (f g : env -> S) (d : list (A * list nat)).

    Lemma upd_eq s a v : upd s a v a = v.
    Proof. unfold upd; rewrite eqb_refl; auto. Qed.
    Lemma upd_neq s a v b : b <> a -> upd s a v b = s b.
    Proof. unfold upd; intros N; destruct (eqb_spec b a); congruence. Qed.

    (** [f] looks at the assignment only on the labels in [L] *)
    Definition depends_on (L : list A) f : Prop :=
      forall s s', (forall a, In a L -> s a = s' a) -> f s = f s'.
    (** [f] is invariant under pointwise equal assignments *)
    Definition exten f : Prop := forall s s', (forall a, s a = s' a) -> f s = f s'.

    Lemma depends_exten L f : depends_on L f -> exten f.
    Proof. intros D s s' E; apply D; auto. Qed.
    Lemma depends_incl L L' f : incl L L' -> depends_on L f -> depends_on L' f.
    Proof. intros I D s s' E; apply D; auto. Qed.

    Lemma esum_app d1 d2 f s : esum (d1 ++ d2) f s = esum d1 (fun s' => esum d2 f s') s.
    Proof.
      revert s; induction d1 as [|[a vs] r IH]; simpl; intros s; auto.
      apply sumf_ext; intros; auto.
    Qed.

    (** the assignments reached by [esum d _ s] *)
    Definition ranges d s s' : Prop :=
      (forall a vs, In (a, vs) d -> In (s' a) vs) /\
      (forall a, ~ In a (keys d) -> s' a = s a).

    Lemma esum_ext d f g s :
      NoDup (keys d) ->
      (forall s', ranges d s s' -> f s' = g s') -> esum d f s = esum d g s.
    Proof.
      revert s; induction d as [|[a vs] r IH]; simpl; intros s ND E.
      - apply E; split; simpl; tauto.
      - inversion ND; subst. apply sumf_ext; intros v Hv. apply IH; auto.
        intros s' [R1 R2]. apply E; split.
        + intros b ws [Eq|I]; [inversion Eq; subst|apply R1; auto].
          rewrite R2 by auto. rewrite upd_eq; auto.
        + simpl; intros b Nb. rewrite R2 by tauto. apply upd_neq; intros ->; tauto.
    Qed.

    Lemma esum_ext_all d f g s : (forall s', f s' = g s') -> esum d f s = esum d g s.
    Proof.
      revert s; induction d as [|[a vs] r IH]; simpl; intros s E; auto.
      apply sumf_ext; intros; auto.
    Qed.

    Lemma esum_exten d f : exten f -> exten (fun s => esum d f s).
    Proof.
      induction d as [|[a vs] r IH]; simpl; intros E s s' Es; auto.
      apply sumf_ext; intros v _. apply (IH E). intros b; unfold upd; destruct (eqb b a); auto.
    Qed.

    Lemma esum_depends d L f :
      depends_on L f -> depends_on (filter (fun a => negb (mem a (keys d))) L) (fun s => esum d f s).
    Proof.
      revert L; induction d as [|[a vs] r IH]; simpl; intros L D s s' E.
      - apply D; intros a I; apply E; apply filter_In; auto.
      - apply sumf_ext; intros v _. apply (IH L D). intros b Ib.
        apply filter_In in Ib as [Ib Nb]. unfold upd. destruct (eqb_spec b a); auto.
        apply E. apply filter_In; split; auto. unfold mem in *; simpl.
        destruct (eqb_spec b a); [congruence|]. simpl; auto.
    Qed.

    Lemma esum_zero d s : esum d (fun _ => 0 : S) s = 0.
    Proof.
      revert s; induction d as [|[a vs] r IH]; simpl; intros s; auto.
      rewrite (sumf_ext _ (fun _ => 0)); [apply sumf_zero|]; auto.
    Qed.
    Lemma esum_add d f g s : esum d (fun s => f s + g s) s = esum d f s + esum d g s.
    Proof.
      revert s; induction d as [|[a vs] r IH]; simpl; intros s; auto.
      rewrite <- sumf_add. apply sumf_ext; intros; auto.
    Qed.
    Lemma esum_sumf d X (F : X -> env -> S) (l : list X) s :
      esum d (fun s => sumf (fun x => F x s) l) s = sumf (fun x => esum d (F x) s) l.
    Proof.
      induction l as [|x r IH]; simpl; [apply esum_zero|].
      rewrite esum_add, IH; auto.
    Qed.
    Lemma esum_conj d f s : kconj (esum d f s) = esum d (fun s => kconj (f s)) s.
    Proof.
      revert s; induction d as [|[a vs] r IH]; simpl; intros s; auto.
      rewrite sumf_conj. apply sumf_ext; intros; auto.
    Qed.

    (** pull out a factor that does not depend on the summed labels *)
    Definition indep (ks : list A) (g : env -> S) : Prop :=
      forall s s', (forall a, ~ In a ks -> s a = s' a) -> g s = g s'.

    Lemma depends_indep L ks g :
      depends_on L g -> (forall a, In a L -> ~ In a ks) -> indep ks g.
    Proof. intros D N s s' E. apply D; auto. Qed.

    Lemma esum_mul_l d f g s :
      indep (keys d) g -> esum d (fun s => g s * f s) s = g s * esum d f s.
    Proof.
      revert s; induction d as [|[a vs] r IH]; simpl; intros s I; auto.
      rewrite <- sumf_mul_l. apply sumf_ext; intros v _.
      rewrite IH.
      - f_equal. apply I. intros b Nb; apply upd_neq; intros ->; apply Nb; simpl; auto.
      - intros s1 s2 E. apply I. intros b Nb; apply E; intros Ib; apply Nb; simpl; auto.
    Qed.
    Lemma esum_mul_r d f g s :
      indep (keys d) g -> esum d (fun s => f s * g s) s = esum d f s * g s.
    Proof.
      intros I. rewrite (esum_ext_all d _ (fun s => g s * f s)) by (intros; ring).
      rewrite esum_mul_l by auto. ring.
    Qed.
    Lemma esum_scale d c f s : esum d (fun s => c * f s) s = c * esum d f s.
    Proof. apply (@esum_mul_l d f (fun _ => c) s). intros ? ? ?; auto. Qed.

    Lemma esum_swap2 a vs b ws d f s :
      a <> b -> exten f ->
      esum ((a, vs) :: (b, ws) :: d) f s = esum ((b, ws) :: (a, vs) :: d) f s.
    Proof.
      intros N E; simpl. rewrite sumf_swap. apply sumf_ext; intros w _.
      apply sumf_ext; intros v _. apply (esum_exten _ E).
      intros c; unfold upd. destruct (eqb_spec c a), (eqb_spec c b); congruence.
    Qed.

    Lemma esum_perm d d' f s :
      Permutation d d' -> NoDup (keys d) -> exten f -> esum d f s = esum d' f s.
    Proof.
      intros P; revert s; induction P as [|[a vs] l l' P IH|[b ws] [a vs] l|l1 l2 l3 P1 IH1 P2 IH2];
        intros s ND E; auto.
      - simpl. inversion ND; subst. apply sumf_ext; intros; auto.
      - apply esum_swap2; auto. inversion ND as [|? ? N _]; subst. intros ->; apply N; simpl; auto.
      - rewrite IH1, IH2; auto. apply Permutation_NoDup with (keys l1); auto.
        apply Permutation_map; auto.
    Qed.

    (** a label that is not looked at contributes the number of its values *)
    Lemma esum_unused a vs d f s :
      exten f -> indep [a] f -> ~ In a (keys d) ->
      esum ((a, vs) :: d) f s = knat S (length vs) * esum d f s.
    Proof.
      intros E I N. simpl. rewrite <- sumf_const. apply sumf_ext; intros v _.
      assert (forall s', indep [a] f -> esum d f (upd s' a v) = esum d f s') as Q; auto.
      clear N I. induction d as [|[b ws] r IH]; simpl; intros s' I.
      - apply I. intros c Nc. apply upd_neq; intros ->; apply Nc; simpl; auto.
      - apply sumf_ext; intros w _. destruct (eq_dec_of_eqb a b) as [->|N].
        + apply (esum_exten _ E). intros c; unfold upd; destruct (eqb c b); auto.
        + rewrite <- (IH (upd s' b w)) by auto. apply (esum_exten _ E).
          intros c; unfold upd. destruct (eqb_spec c a), (eqb_spec c b); congruence.
    Qed.

    (** restricting a label's values by a condition *)
    Lemma esum_restrict a vs d (p : nat -> bool) f s :
      ~ In a (keys d) ->
      esum ((a, vs) :: d) (fun s => kdelta (p (s a)) * f s) s = esum ((a, filter p vs) :: d) f s.
    Proof.
      intros N; simpl. rewrite <- sumf_delta. apply sumf_ext; intros v _.
      rewrite esum_mul_l; [rewrite upd_eq; auto|].
      intros s1 s2 E. rewrite E; auto.
    Qed.

    (** a label pinned to one value *)
    Lemma esum_pin a vs d v f s :
      NoDup vs -> ~ In a (keys d) ->
      esum ((a, vs) :: d) (fun s => kdelta (eqb (s a) v) * f s) s
      = kdelta (mem v vs) * esum d f (upd s a v).
    Proof.
      intros ND N; simpl.
      rewrite (sumf_ext _ (fun w => kdelta (eqb w v) * esum d f (upd s a w))).
      - apply (sumf_pin (fun w => esum d f (upd s a w))); auto.
      - intros w _. rewrite esum_mul_l; [rewrite upd_eq; auto|].
        intros s1 s2 E. rewrite E; auto.
    Qed.

    (** identification of two labels *)
    Definition subst_env (a b : A) s : env := fun x => if eqb x a then s b else s x.

    Lemma esum_identify a va b vb d f s :
      a <> b -> ~ In a (keys d) -> ~ In b (keys d) -> NoDup va -> exten f ->
      esum ((a, va) :: (b, vb) :: d) (fun s => kdelta (eqb (s a) (s b)) * f s) s
      = esum ((b, filter (fun v => mem v va) vb) :: d) (fun s => f (subst_env a b s)) s.
    Proof.
      intros N Na Nb ND E.
      assert (E' : exten (fun s => kdelta (eqb (s a) (s b)) * f s)).
      { intros s1 s2 Es. rewrite !Es. rewrite (E _ _ Es); auto. }
      rewrite esum_swap2 by auto.
      cbn [esum]. rewrite <- sumf_delta. apply sumf_ext; intros w _.
      transitivity (esum ((a, va) :: d) (fun s => kdelta (eqb (s a) w) * f s) (upd s b w)).
      - cbn [esum]. apply sumf_ext; intros v _.
        (* inside, s b = w always *)
        assert (Q : forall d0 s0, ~ In b (keys d0) -> s0 b = w ->
                  esum d0 (fun s => kdelta (eqb (s a) (s b)) * f s) s0
                  = esum d0 (fun s => kdelta (eqb (s a) w) * f s) s0).
        { induction d0 as [|[c cs] r IH]; intros s0 Nb0 Hb; simpl.
          - rewrite Hb; auto.
          - apply sumf_ext; intros x _. apply IH.
            + intros Ib; apply Nb0; simpl; auto.
            + rewrite upd_neq; auto. intros ->; apply Nb0; simpl; auto. }
        apply Q; auto. rewrite upd_neq by auto. apply upd_eq.
      - rewrite esum_pin by auto. f_equal.
        assert (Q : forall d0 s0, ~ In b (keys d0) -> ~ In a (keys d0) -> s0 b = w ->
                  esum d0 f (upd s0 a w) = esum d0 (fun s => f (subst_env a b s)) s0).
        { induction d0 as [|[c cs] r IH]; intros s0 Nb0 Na0 Hb; simpl.
          - apply E. intros x; unfold upd, subst_env. rewrite Hb; auto.
          - apply sumf_ext; intros x _. simpl in Nb0, Na0. rewrite <- IH.
            + apply (esum_exten _ E). intros y; unfold upd.
              destruct (eqb_spec y a), (eqb_spec y c); auto. subst; tauto.
            + tauto.
            + tauto.
            + rewrite upd_neq; auto. }
        apply Q; auto. apply upd_eq.
    Qed.

    (** the starting assignment only matters outside the summed labels *)
    Lemma esum_start d f s s' :
      exten f -> (forall a, ~ In a (keys d) -> s a = s' a) -> esum d f s = esum d f s'.
    Proof.
      revert s s'; induction d as [|[a vs] r IH]; simpl; intros s s' E Es.
      - apply E; intros; apply Es; tauto.
      - apply sumf_ext; intros v _. apply IH; auto. intros b Nb. unfold upd.
        destruct (eqb_spec b a); auto. apply Es. intros [->|]; tauto.
    Qed.

    Lemma esum_start_dep d L f s s' :
      depends_on L f -> (forall a, In a L -> ~ In a (keys d) -> s a = s' a) ->
      esum d f s = esum d f s'.
    Proof.
      intros D Es. apply (esum_depends d D). intros a Ia. apply filter_In in Ia as [Ia Na].
      apply negb_true_iff, mem_false in Na. auto.
    Qed.
  End Env.
End SumsK.
