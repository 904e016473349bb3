(** Sums over pairs of assignments, as sums over named labels. *)
From Coq Require Import Reals.
From Verif Require Import Base Scalar NetSpec Sums NetAlg Complex QaoaSpec QaoaMath.
Set Implicit Arguments.
Open Scope nat_scope.
Local Open Scope K_scope.
Add Ring CKring_qp : (kring CK).

Fixpoint pairs (Q : list Z) (F : bits -> bits -> CK) (x y : bits) : CK :=
  match Q with
  | [] => F x y
  | q :: r => sumf (fun v => sumf (fun w => pairs r F (upd x q v) (upd y q w)) [0; 1]%nat) [0; 1]%nat
  end.

Lemma pairs_over Q F : forall x y,
  esum (dom Q) (fun x => esum (dom Q) (fun y => F x y) y) x = pairs Q F x y.
Proof.
  induction Q as [|q r IH]; intros x y; [reflexivity|].
  cbn [dom map]. fold (dom r). cbn [esum pairs]. apply sumf_ext. intros v _.
  rewrite esum_sumf. apply sumf_ext. intros w _. apply IH.
Qed.

Lemma pairs_zero Q F : forall x y, (forall x' y', (forall q, ~ In q Q -> x' q = x q) -> (forall q, ~ In q Q -> y' q = y q) -> F x' y' = 0) ->
  pairs Q F x y = 0.
Proof.
  induction Q as [|q r IH]; intros x y H; cbn [pairs]; [apply H; auto|].
  rewrite (sumf_ext _ (fun _ => 0)); [apply sumf_zero|]. intros v _.
  rewrite (sumf_ext _ (fun _ => 0)); [apply sumf_zero|]. intros w _.
  apply IH. intros x' y' Ex Ey. apply H; intros z N; [rewrite Ex|rewrite Ey]; try (intros I; apply N; simpl; auto; fail);
    apply upd_neq; intros ->; apply N; simpl; auto.
Qed.

Section Names.
  Context {B : Type} `{EB : Eqb B}.
  Variables a b : Z -> B.
  Hypothesis ab : forall q r, q <> r -> a q <> a r /\ a q <> b r /\ b q <> b r.

  Definition ndom (O N : list Z) : list (B * list nat) :=
    map (fun e => (e, [0; 1]%nat)) (concat (map (fun q => [a q; b q]) O) ++ map a N).

  Lemma pairs_names (F : bits -> bits -> CK) (G : env (A := B) -> CK) : forall O N C x y s,
    NoDup (O ++ N) ->
    (forall q, In q C -> ~ In q (O ++ N)) ->
    (forall q, In q O -> a q <> b q) -> (forall q, In q N -> a q = b q) ->
    (forall q, In q C -> x q = s (a q) /\ y q = s (b q)) ->
    (forall x y q, In q N -> x q <> y q -> F x y = 0) ->
    (forall x y s, (forall q, In q (C ++ O ++ N) -> x q = s (a q) /\ y q = s (b q)) -> F x y = G s) ->
    pairs (O ++ N) F x y = esum (ndom O N) G s.
  Proof.
    induction O as [|q O IHO].
    - induction N as [|q N IHN]; intros C x y s ND Dj Ho Hn Hc Hz HG.
      + simpl. apply HG. intros q I. rewrite app_nil_r in I. auto.
      + cbn [app] in ND. inversion ND as [|? ? Nq ND']; subst.
        cbn [app pairs]. unfold ndom. cbn [map concat app esum]. apply sumf_ext. intros v Iv.
        transitivity (pairs N F (upd x q v) (upd y q v)).
        * assert (Z : forall w, w <> v -> pairs N F (upd x q v) (upd y q w) = 0).
          { intros w Nw. apply pairs_zero. intros x' y' Ex Ey. apply Hz with q; [simpl; auto|].
            rewrite Ex, Ey, !upd_eq by auto. auto. }
          cbn [sumf]. destruct Iv as [<-|[<-|[]]].
          -- rewrite (Z 1%nat) by auto. ring.
          -- rewrite (Z 0%nat) by auto. ring.
        * specialize (IHN (q :: C) (upd x q v) (upd y q v) (upd s (a q) v)).
          cbn [app] in IHN. unfold ndom in IHN. cbn [map concat app] in IHN. apply IHN; auto.
          -- intros z [<-|I]; auto. intros J. apply (Dj z I). simpl; auto.
          -- intros z I; apply Hn; simpl; auto.
          -- intros z [<-|I].
             ++ rewrite !upd_eq, <- Hn, upd_eq by (simpl; auto). auto.
             ++ assert (z <> q) by (intros ->; apply (Dj q I); simpl; auto).
                destruct (Hc z I) as [E1 E2]. destruct (ab H) as (A1 & A2 & A3).
                rewrite !upd_neq; auto. rewrite (Hn q) by (simpl; auto). auto.
          -- intros x' y' z I; apply Hz; simpl; auto.
          -- intros x' y' s' H. apply HG. intros z I. apply H. cbn [app] in I |- *. rewrite in_app_iff in I. cbn [In] in *. rewrite in_app_iff. tauto.
    - intros N C x y s ND Dj Ho Hn Hc Hz HG.
      cbn [app] in ND. inversion ND as [|? ? Nq ND']; subst.
      cbn [app pairs]. unfold ndom. cbn [map concat app esum]. apply sumf_ext. intros v _. apply sumf_ext. intros w _.
      apply (IHO N (q :: C)); auto.
      + intros z [<-|I]; auto. intros J. apply (Dj z I). simpl; auto.
      + intros z I; apply Ho; simpl; auto.
      + assert (Aq : a q <> b q) by (apply Ho; simpl; auto).
        intros z [<-|I].
        * rewrite !upd_eq. rewrite (upd_neq _ _ Aq), upd_eq. auto.
        * assert (z <> q) by (intros ->; apply (Dj q I); simpl; auto).
          destruct (Hc z I) as [E1 E2]. destruct (ab H) as (A1 & A2 & A3).
          assert (H' : q <> z) by auto. destruct (ab H') as (B1 & B2 & B3).
          rewrite !upd_neq; auto.
      + intros x' y' s' H. apply HG. intros z I. apply H. cbn [app] in I |- *. rewrite in_app_iff in I. cbn [In] in *. rewrite in_app_iff. tauto.
  Qed.
End Names.
