(** optimum returns a best assignment when the variables are 0, 1, ..., n-1. *)
From Coq Require Import Reals Lra.
From Verif Require Import Base Scalar NetSpec Complex QaoaSpec ModelQaoa.
Set Implicit Arguments.
Open Scope nat_scope.

Lemma mapM_Ok {X Y} (f : X -> res Y) (g : X -> Y) l : (forall x, In x l -> f x = Ok (g x)) -> mapM f l = Ok (map g l).
Proof.
  induction l as [|x r IH]; intros H; [reflexivity|]. cbn [mapM map]. rewrite H by (simpl; auto). cbn [bind].
  rewrite IH by (intros; apply H; simpl; auto). reflexivity.
Qed.
Lemma assignments_In n x : In x (assignments n) <-> length x = n /\ Forall (fun b => In b [0; 1]) x.
Proof.
  revert x; induction n as [|n IH]; intros x.
  - cbn [assignments]. split.
    + intros [<-|[]]. auto.
    + intros [L _]. destruct x; [left; auto|discriminate].
  - cbn [assignments flat_map]. rewrite app_nil_r, in_app_iff, !in_map_iff. split.
    + intros [(y & <- & I)|(y & <- & I)]; apply IH in I as [L F]; split; simpl; auto; constructor; simpl; auto.
    + intros [L F]. destruct x as [|b x]; [discriminate|]. inversion F as [|? ? Hb F']; subst. injection L as L.
      destruct Hb as [<-|[<-|[]]]; [left|right]; exists x; split; auto; apply IH; auto.
Qed.

(** the assignment of a tuple *)
Definition of_tuple (x : list nat) : bits := fun q => nth (Z.to_nat q) x 0.

Lemma energy_of_ok n x : length x = n -> forall (c : csp) e, (forall cl q, In cl (map fst c) -> In q cl -> (0 <= q < Z.of_nat n)%Z) ->
  energy_of c x e = Ok (e + cost c (of_tuple x))%R.
Proof.
  intros Ln. induction c as [|[cl t] r IH]; intros e H; cbn [energy_of cost fold_right].
  - f_equal. lra.
  - cbn [fst snd]. rewrite (@mapM_Ok _ _ (tuple_at x) (of_tuple x)).
    + cbn [bind]. rewrite IH by (intros; eapply H; simpl; eauto). f_equal. unfold cost. lra.
    + intros q I. destruct (H cl q) as [H1 H2]; simpl; auto. unfold tuple_at. rewrite Ln.
      replace (0 <=? q)%Z with true by (symmetry; apply Z.leb_le; auto). replace (q <? Z.of_nat n)%Z with true by (symmetry; apply Z.ltb_lt; auto). reflexivity.
Qed.

Lemma least_ok (key : list nat -> res R) (k : list nat -> R) l : (forall y, In y l -> key y = Ok (k y)) ->
  forall v x, v = k x -> exists y, least key l v x = Ok (k y, y) /\ (y = x \/ In y l) /\ (k y <= v)%R /\ forall z, In z l -> (k y <= k z)%R.
Proof.
  induction l as [|y r IH]; intros H v x E; cbn [least].
  - exists x. rewrite E. split; auto. split; auto. split; [lra|]. intros z [].
  - rewrite H by (simpl; auto). cbn [bind]. assert (H' : forall z, In z r -> key z = Ok (k z)) by (intros; apply H; simpl; auto).
    destruct (Rlt_dec (k y) v) as [L|L].
    + destruct (IH H' (k y) y eq_refl) as (z & Ez & I & L1 & L2). exists z. split; auto. split; [destruct I; subst; simpl; auto|].
      split; [lra|]. intros w [<-|Iw]; auto.
    + destruct (IH H' v x E) as (z & Ez & I & L1 & L2). exists z. split; auto. split; [destruct I; subst; simpl; auto|].
      split; [lra|]. intros w [<-|Iw]; auto. lra.
Qed.

Theorem optimum_ok (c : csp) : (forall q, In q (variables c) -> (0 <= q < Z.of_nat (length (variables c)))%Z) ->
  exists x, optimum c = Ok (cost c (of_tuple x), x) /\ length x = length (variables c) /\ Forall (fun b => In b [0; 1]) x /\
    forall y : bits, (forall q, In (y q) [0; 1]) -> (cost c (of_tuple x) <= cost c y)%R.
Proof.
  intros H. set (n := length (variables c)) in *.
  assert (Hc : forall cl q, In cl (map fst c) -> In q cl -> (0 <= q < Z.of_nat n)%Z).
  { intros cl q Ic Iq. apply H. unfold variables. apply dedup_In, in_concat. eauto. }
  assert (K : forall y, In y (assignments n) -> energy_of c y 0%R = Ok (cost c (of_tuple y))).
  { intros y I. apply assignments_In in I as [L _]. rewrite (@energy_of_ok n y L c 0%R Hc). f_equal. lra. }
  unfold optimum. fold n. destruct (assignments n) as [|a l] eqn:E.
  - exfalso. assert (I : In (repeat 0 n) (assignments n)).
    { apply assignments_In. split; [apply repeat_length|]. apply Forall_forall. intros b Ib. apply repeat_spec in Ib. subst. simpl; auto. }
    rewrite E in I. destruct I.
  - rewrite K by (simpl; auto). cbn [bind].
    destruct (@least_ok (fun a => energy_of c a 0%R) (fun y => cost c (of_tuple y)) l) with (v := cost c (of_tuple a)) (x := a)
      as (x & Ex & Ix & L1 & L2); auto; [intros; apply K; simpl; auto|].
    rewrite Ex. cbn [bind snd]. assert (I : In x (assignments n)) by (rewrite E; destruct Ix; subst; simpl; auto).
    rewrite <- E in K. rewrite K by auto. cbn [bind]. exists x. split; auto. apply assignments_In in I as [Lx Fx]. split; auto. split; auto.
    intros y By. set (z := map (fun i => y (Z.of_nat i)) (seq 0 n)).
    assert (Iz : In z (a :: l)).
    { rewrite <- E. apply assignments_In. unfold z. rewrite map_length, seq_length. split; auto. apply Forall_forall.
      intros b Ib. apply in_map_iff in Ib as (i & <- & _). apply By. }
    assert (Cz : cost c (of_tuple z) = cost c y).
    { subst z. clearbody n. clear - Hc. revert Hc. induction c as [|[cl t] r IH]; intros Hc; auto. unfold cost in *. cbn [fold_right fst snd].
      rewrite IH by (intros; eapply Hc; simpl; eauto). f_equal. f_equal. apply map_ext_in. intros q I.
      destruct (Hc cl q) as [H1 H2]; simpl; auto. unfold of_tuple.
      rewrite (nth_indep _ 0 (y (Z.of_nat 0))) by (rewrite map_length, seq_length; lia).
      rewrite (map_nth (fun i => y (Z.of_nat i))), seq_nth by lia. f_equal. lia. }
    rewrite <- Cz. destruct Iz as [<-|Iz]; auto.
Qed.

(** every cost of bits is below some number *)
Lemma bits_bounded (t : list nat -> R) n : exists hi, forall v, length v = n -> Forall (fun b => In b [0; 1]) v -> (t v <= hi)%R.
Proof.
  assert (Q : exists hi, forall v, In v (assignments n) -> (t v <= hi)%R).
  { induction (assignments n) as [|a l (hi & H)]; [exists 0%R; intros v []|].
    exists (Rmax (t a) hi). intros v [<-|I]; [apply Rmax_l|]. eapply Rle_trans; [apply H; auto|apply Rmax_r]. }
  destruct Q as (hi & H). exists hi. intros v L F. apply H, assignments_In. auto.
Qed.
Lemma cost_bounded (c : csp) : exists hi, forall y : bits, (forall q, In (y q) [0; 1]) -> (cost c y <= hi)%R.
Proof.
  induction c as [|[cl t] r (hi & H)]; [exists 0%R; intros; unfold cost; simpl; lra|].
  destruct (bits_bounded t (length cl)) as (h & Hb). exists (h + hi)%R. intros y By. unfold cost in *. cbn [fold_right fst snd].
  apply Rplus_le_compat; auto. apply Hb; [apply map_length|]. apply Forall_forall. intros b I. apply in_map_iff in I as (q & <- & _). apply By.
Qed.
