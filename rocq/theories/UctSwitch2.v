(** * switch_edges: the proof *)
From Coq Require Import List Arith ZArith Lia Bool Permutation Sorted.
From Verif Require Import Base PathSpec UctSpec ModelOrder ModelPath ModelOpt PathProofs OptProofs DPProofs DPProofs2 ModelUct UctProofs UctPath UctSwitch.
Import ListNotations.
Set Implicit Arguments.
Open Scope nat_scope.

Lemma get_del {A B} `{Eqb A} (k k' : A) (l : list (A * B)) : get k' (del k l) = if eqb k' k then None else get k' l.
Proof. destruct (eqb_spec k' k) as [->|N]; [apply get_del_eq|apply get_del_neq; congruence]. Qed.
Lemma same_pair_iff p q : same_pair p q = true <-> p = q \/ p = (snd q, fst q).
Proof.
  destruct p as [a b], q as [c d]. unfold same_pair; simpl. rewrite orb_true_iff, !andb_true_iff, !Nat.eqb_eq.
  split; [intros [[-> ->]|[-> ->]]; auto|]. intros [E|E]; injection E as -> ->; auto.
Qed.
Lemma par_is_iff par x y : par_is par x y = true <-> get x par = Some y.
Proof. unfold par_is. destruct (get x par) as [p|]; [rewrite Nat.eqb_eq|]; split; congruence. Qed.

(** transfer of the data of a node whose neighbours are renamed *)
Lemma perm_rename (rho : nat -> nat) l l' p k0 k1 : Permutation l' (map rho l) -> Permutation l' [p; k0; k1] ->
  exists q j0 j1, p = rho q /\ k0 = rho j0 /\ k1 = rho j1 /\ Permutation l [q; j0; j1].
Proof.
  intros P Q. rewrite P in Q. apply Permutation_sym in Q. apply Permutation_map_inv in Q as (l3 & E & R).
  destruct l3 as [|q [|j0 [|j1 [|]]]]; try discriminate. injection E as -> -> ->. exists q, j0, j1. auto.
Qed.

Section Switch.
  Variables (n : nat) (A : nat -> list nat) (C X D Y : ut) (u v : nat).
  Let c0 := uid C.
  Let c1 := uid D.
  Let x := uid X.
  Let y := uid Y.
  Hypothesis V : view n A (UN u C X) (UN v D Y).

  Lemma six : NoDup [u; v; c0; x; c1; y].
  Proof.
    pose proof V as (_ & _ & ND & _). cbn [ids] in ND.
    assert (ND2 : NoDup ([u; v] ++ ids C ++ ids X ++ ids D ++ ids Y)).
    { eapply Permutation_NoDup; [|apply ND]. simpl. apply perm_skip. rewrite <- Permutation_middle. apply perm_skip. now rewrite <- !app_assoc. }
    apply NoDup_app_iff in ND2 as (Nuv & ND2 & D1). apply NoDup_app_iff in ND2 as (Nc & ND2 & D2).
    apply NoDup_app_iff in ND2 as (Nx & ND2 & D3). apply NoDup_app_iff in ND2 as (Nd & Ny & D4).
    pose proof (uid_in C) as Tc. pose proof (uid_in X) as Tx. pose proof (uid_in D) as Td. pose proof (uid_in Y) as Ty.
    assert (O : forall z, In z [u; v] -> z <> c0 /\ z <> x /\ z <> c1 /\ z <> y).
    { intros z Hz. specialize (D1 z Hz). rewrite !in_app_iff in D1. repeat split; intros ->; tauto. }
    destruct (O u) as (O1 & O2 & O3 & O4); [simpl; auto|]. destruct (O v) as (Q1 & Q2 & Q3 & Q4); [simpl; auto|].
    assert (R : c0 <> x /\ c0 <> c1 /\ c0 <> y). { specialize (D2 _ Tc). rewrite !in_app_iff in D2. fold c0 in D2. repeat split; intros E; rewrite E in D2; tauto. }
    assert (R2 : x <> c1 /\ x <> y). { specialize (D3 _ Tx). rewrite !in_app_iff in D3. fold x in D3. repeat split; intros E; rewrite E in D3; tauto. }
    assert (R3 : c1 <> y). { specialize (D4 _ Td). fold c1 in D4. intros E; rewrite E in D4; tauto. }
    inversion Nuv as [|? ? Nu _]; subst. simpl in Nu.
    repeat (constructor; simpl; [intuition congruence|]). constructor.
  Qed.
  Lemma kidsC k : In k (kids C) -> k <> u /\ k <> v /\ k <> c0 /\ k <> c1 /\ k <> x /\ k <> y.
  Proof.
    intros Hk. assert (Ik : In k (ids C) /\ k <> c0).
    { pose proof V as (_ & _ & ND & _). simpl in ND. inversion ND as [|? ? _ ND1]; subst. rewrite <- app_assoc in ND1. apply NoDup_app_iff in ND1 as (NC & _).
      unfold c0. destruct C as [i|w l r]; simpl in *; [destruct Hk|]. inversion NC as [|? ? Nw _]; subst. rewrite in_app_iff in Nw.
      pose proof (uid_in l). pose proof (uid_in r). destruct Hk as [<-|[<-|[]]]; rewrite in_app_iff; (split; [tauto|]); intros E; rewrite E in *; tauto. }
    destruct Ik as [Ik Nk]. pose proof V as (_ & _ & ND & _). simpl in ND. inversion ND as [|? ? Nu ND1]; subst.
    rewrite !in_app_iff in Nu. rewrite <- app_assoc in ND1. apply NoDup_app_iff in ND1 as (_ & _ & Dj). specialize (Dj k Ik). rewrite in_app_iff in Dj. simpl in Dj. rewrite in_app_iff in Dj.
    pose proof (uid_in X). pose proof (uid_in D). pose proof (uid_in Y). repeat split; auto; intros ->; tauto.
  Qed.
End Switch.
Lemma kidsD n A C X D Y u v k : view n A (UN u C X) (UN v D Y) -> In k (kids D) ->
  k <> u /\ k <> v /\ k <> uid C /\ k <> uid D /\ k <> uid X /\ k <> uid Y.
Proof. intros V H. apply view_sym in V. destruct (@kidsC n A D Y C X v u V k H) as (H1 & H2 & H3 & H4 & H5 & H6). tauto. Qed.

Section Exchange.
  Variables (n : nat) (A A' : nat -> list nat) (C X D Y : ut) (u v : nat).
  Notation c0 := (uid C).
  Notation c1 := (uid D).
  Notation x := (uid X).
  Notation y := (uid Y).
  Hypothesis V : view n A (UN u C X) (UN v D Y).
  Hypothesis Hu : Permutation (A' u) [v; c1; x].
  Hypothesis Hv : Permutation (A' v) [u; c0; y].
  Hypothesis Hc0 : Permutation (A' c0) (v :: kids C).
  Hypothesis Hc1 : Permutation (A' c1) (u :: kids D).
  Hypothesis Hz : forall z, z <> u -> z <> v -> z <> c0 -> z <> c1 -> A' z = A z.
  Definition bad p q : Prop := In (p, q) [(u, v); (v, u); (u, c0); (c0, u); (v, c1); (c1, v)].
  Definition new p q : Prop := In (p, q) [(u, v); (v, u); (u, c1); (c1, u); (v, c0); (c0, v)].

  Lemma exch_view : view n A' (UN u D X) (UN v C Y).
  Proof. eapply view_switch; eauto. Qed.
  Lemma exch_A : Permutation (A u) [v; c0; x] /\ Permutation (A v) [u; c1; y] /\ Permutation (A c0) (u :: kids C) /\ Permutation (A c1) (v :: kids D).
  Proof.
    destruct V as ((_ & P1 & P2 & _) & (_ & P3 & P4 & _) & _). apply hang_top in P2, P4. auto.
  Qed.
  Lemma neqs : (u <> v /\ u <> c0 /\ u <> x /\ u <> c1 /\ u <> y) /\ (v <> c0 /\ v <> x /\ v <> c1 /\ v <> y) /\
    (c0 <> x /\ c0 <> c1 /\ c0 <> y) /\ (x <> c1 /\ x <> y) /\ c1 <> y.
  Proof.
    clear - V. pose proof (@six n A C X D Y u v V) as S. clear V. repeat match goal with H : NoDup (_ :: _) |- _ => inversion H; clear H; subst end.
    simpl in *. repeat split; intros E; rewrite E in *; tauto.
  Qed.
  Lemma keep_edge p q : In q (A p) -> ~ bad p q -> In q (A' p) /\ ~ new p q.
  Proof.
    intros H B. destruct exch_A as (Eu & Ev & Ec0 & Ec1). destruct neqs as ((N1 & N2 & N3 & N4 & N5) & (N6 & N7 & N8 & N9) & (N10 & N11 & N12) & (N13 & N14) & N15).
    unfold bad, new in *. simpl in *.
    destruct (Nat.eq_dec p u) as [->|Nu].
    { rewrite Eu in H. destruct H as [<-|[<-|[<-|[]]]]; try (exfalso; apply B; auto 10; fail). rewrite Hu. split; [simpl; auto|]. intuition congruence. }
    destruct (Nat.eq_dec p v) as [->|Nv].
    { rewrite Ev in H. destruct H as [<-|[<-|[<-|[]]]]; try (exfalso; apply B; auto 10; fail). rewrite Hv. split; [simpl; auto|]. intuition congruence. }
    destruct (Nat.eq_dec p c0) as [->|Nc0].
    { rewrite Ec0 in H. destruct H as [<-|H]; [exfalso; apply B; auto 10|]. rewrite Hc0. split; [right; auto|].
      destruct (@kidsC n A C X D Y u v V q H) as (K1 & K2 & K3 & K4 & _). intuition congruence. }
    destruct (Nat.eq_dec p c1) as [->|Nc1].
    { rewrite Ec1 in H. destruct H as [<-|H]; [exfalso; apply B; auto 10|]. rewrite Hc1. split; [right; auto|].
      destruct (@kidsD n A C X D Y u v q V H) as (K1 & K2 & K3 & K4 & _). intuition congruence. }
    rewrite Hz; auto. split; auto. intuition congruence.
  Qed.

  (** subscripts *)
  Variables (leaf : list nset) (sub sub' : list ((nat * nat) * nset)).
  Hypothesis SK : sub_ok n leaf A sub.
  Hypothesis S1 : get (v, c0) sub' = get (u, c0) sub.
  Hypothesis S2 : get (c0, v) sub' = get (c0, u) sub.
  Hypothesis S3 : get (u, c1) sub' = get (v, c1) sub.
  Hypothesis S4 : get (c1, u) sub' = get (c1, v) sub.
  Hypothesis S5 : get (v, u) sub' = Some (sunion (sv sub v c1) (sv sub u x)).
  Hypothesis S6 : get (u, v) sub' = Some (sunion (sv sub u c0) (sv sub v y)).
  Hypothesis S7 : forall p q, ~ (In p [u; v; c0; c1] /\ In q [u; v; c0; c1]) -> get (p, q) sub' = get (p, q) sub.
  Lemma keep_get p q : In q (A p) -> ~ bad p q -> get (p, q) sub' = get (p, q) sub.
  Proof.
    intros H B. apply S7. intros [Ip Iq]. destruct exch_A as (Eu & Ev & Ec0 & Ec1). destruct neqs as ((N1 & N2 & N3 & N4 & N5) & (N6 & N7 & N8 & N9) & (N10 & N11 & N12) & (N13 & N14) & N15).
    unfold bad in B. simpl in *. destruct Ip as [<-|[<-|[<-|[<-|[]]]]].
    - rewrite Eu in H. destruct H as [<-|[<-|[<-|[]]]]; try (apply B; auto 10; fail). intuition congruence.
    - rewrite Ev in H. destruct H as [<-|[<-|[<-|[]]]]; try (apply B; auto 10; fail). intuition congruence.
    - rewrite Ec0 in H. destruct H as [<-|H]; [apply B; auto 10|]. destruct (@kidsC n A C X D Y u v V q H) as (K1 & K2 & K3 & K4 & _). intuition congruence.
    - rewrite Ec1 in H. destruct H as [<-|H]; [apply B; auto 10|]. destruct (@kidsD n A C X D Y u v q V H) as (K1 & K2 & K3 & K4 & _). intuition congruence.
  Qed.
  Definition rho (q k : nat) : nat := if (q =? c0) && (k =? u) then v else if (q =? c1) && (k =? v) then u else k.
  Lemma rho_nbs q : q <> u -> q <> v -> Permutation (A' q) (map (rho q) (A q)).
  Proof.
    intros Nu Nv. destruct exch_A as (Eu & Ev & Ec0 & Ec1). destruct neqs as ((N1 & N2 & N3 & N4 & N5) & (N6 & N7 & N8 & N9) & (N10 & N11 & N12) & (N13 & N14) & N15).
    destruct (Nat.eq_dec q c0) as [->|Nc0].
    { rewrite Hc0, (Permutation_map (rho c0) Ec0). simpl. unfold rho at 1. rewrite !Nat.eqb_refl. simpl. apply perm_skip.
      rewrite <- (map_id (kids C)) at 1. apply Permutation_refl'. apply map_ext_in. intros k Hk. destruct (@kidsC n A C X D Y u v V k Hk) as (K1 & K2 & K3 & K4 & _).
      unfold rho. rewrite (proj2 (Nat.eqb_neq k u) K1), (proj2 (Nat.eqb_neq k v) K2), !andb_false_r. auto. }
    destruct (Nat.eq_dec q c1) as [->|Nc1].
    { rewrite Hc1, (Permutation_map (rho c1) Ec1). simpl. unfold rho at 1. rewrite !Nat.eqb_refl. rewrite (proj2 (Nat.eqb_neq c1 c0)) by congruence. simpl. apply perm_skip.
      rewrite <- (map_id (kids D)) at 1. apply Permutation_refl'. apply map_ext_in. intros k Hk. destruct (@kidsD n A C X D Y u v k V Hk) as (K1 & K2 & K3 & K4 & _).
      unfold rho. rewrite (proj2 (Nat.eqb_neq k u) K1), (proj2 (Nat.eqb_neq k v) K2), !andb_false_r. auto. }
    rewrite Hz; auto. apply Permutation_refl'. rewrite <- (map_id (A q)) at 1. apply map_ext. intros k. unfold rho.
    rewrite (proj2 (Nat.eqb_neq q c0) Nc0), (proj2 (Nat.eqb_neq q c1) Nc1). auto.
  Qed.
  Lemma rho_sub q k : q <> u -> q <> v -> In k (A q) -> get (q, rho q k) sub' = get (q, k) sub /\ get (rho q k, q) sub' = get (k, q) sub.
  Proof.
    intros Nu Nv Hk. destruct neqs as ((N1 & N2 & N3 & N4 & N5) & (N6 & N7 & N8 & N9) & (N10 & N11 & N12) & (N13 & N14) & N15). unfold rho.
    destruct (Nat.eqb_spec q c0) as [->|E0].
    { simpl. destruct (Nat.eqb_spec k u) as [->|Nk]; [auto|]. rewrite (proj2 (Nat.eqb_neq c0 c1)) by congruence. simpl.
      assert (B : ~ bad c0 k) by (unfold bad; simpl; intuition congruence). assert (B2 : ~ bad k c0) by (unfold bad; simpl; intuition congruence).
      split; apply keep_get; auto. apply (@view_edge _ _ _ _ _ _ V Hk). }
    simpl. destruct (Nat.eqb_spec q c1) as [->|E1].
    { simpl. destruct (Nat.eqb_spec k v) as [->|Nk]; [auto|].
      assert (B : ~ bad c1 k) by (unfold bad; simpl; intuition congruence). assert (B2 : ~ bad k c1) by (unfold bad; simpl; intuition congruence).
      split; apply keep_get; auto. apply (@view_edge _ _ _ _ _ _ V Hk). }
    simpl. assert (B : ~ bad q k) by (unfold bad; simpl; intuition congruence). assert (B2 : ~ bad k q) by (unfold bad; simpl; intuition congruence).
    split; apply keep_get; auto. apply (@view_edge _ _ _ _ _ _ V Hk).
  Qed.
  Lemma rho_sv q k : q <> u -> q <> v -> In k (A q) -> sv sub' q (rho q k) = sv sub q k /\ sv sub' (rho q k) q = sv sub k q.
  Proof. intros Nu Nv Hk. destruct (@rho_sub q k Nu Nv Hk) as [E1 E2]. unfold sv. now rewrite E1, E2. Qed.
  Lemma rho_inj q k k' : q <> u -> q <> v -> In k (A q) -> In k' (A q) -> rho q k = rho q k' -> k = k'.
  Proof.
    intros Nu Nv Hk Hk'. destruct exch_A as (Eu & Ev & Ec0 & Ec1). destruct neqs as ((N1 & N2 & N3 & N4 & N5) & (N6 & N7 & N8 & N9) & (N10 & N11 & N12) & (N13 & N14) & N15). unfold rho.
    destruct (Nat.eqb_spec q c0) as [->|E0].
    { simpl. rewrite (proj2 (Nat.eqb_neq c0 c1)) by congruence. simpl.
      assert (Iv : forall w, In w (A c0) -> w <> v). { intros w Hw ->. rewrite Ec0 in Hw. destruct Hw as [Hw|Hw]; [congruence|]. apply (@kidsC n A C X D Y u v V v) in Hw. tauto. }
      specialize (Iv _ Hk) as I1. specialize (Iv _ Hk') as I2. destruct (Nat.eqb_spec k u), (Nat.eqb_spec k' u); congruence. }
    simpl. destruct (Nat.eqb_spec q c1) as [->|E1]; simpl; auto.
    assert (Iv : forall w, In w (A c1) -> w <> u). { intros w Hw ->. rewrite Ec1 in Hw. destruct Hw as [Hw|Hw]; [congruence|]. apply (@kidsD n A C X D Y u v u V) in Hw. tauto. }
    specialize (Iv _ Hk) as I1. specialize (Iv _ Hk') as I2. destruct (Nat.eqb_spec k v), (Nat.eqb_spec k' v); congruence.
  Qed.
  Lemma sub_q p q : In q (A' p) -> q <> u -> q <> v ->
    here sub' p q /\ asc (sv sub' p q) /\ (q < n -> nth_error leaf q = Some (sv sub' p q)) /\
    (forall k0 k1, Permutation (A' q) [p; k0; k1] -> sv sub' p q = sunion (sv sub' q k0) (sv sub' q k1)).
  Proof.
    intros H Nu Nv. assert (Hq : In p (A' q)) by (apply (@view_edge _ _ _ _ _ _ exch_view H)).
    rewrite (@rho_nbs q Nu Nv) in Hq. apply in_map_iff in Hq as (p1 & <- & Hp1).
    destruct (@rho_sub q p1 Nu Nv Hp1) as [E1 E2]. destruct (@rho_sv q p1 Nu Nv Hp1) as [F1 F2].
    destruct (SK p1 q) as (K1 & K2 & K3 & K4); [apply (@view_edge _ _ _ _ _ _ V Hp1)|].
    unfold here. rewrite E2, F2. repeat split; auto. intros k0 k1 Pk.
    destruct (@perm_rename _ _ _ _ _ _ (@rho_nbs q Nu Nv) Pk) as (p2 & j0 & j1 & G1 & -> & -> & Pj).
    assert (p1 = p2). { apply (@rho_inj q); auto. rewrite Pj. simpl; auto. } subst p2.
    rewrite (K4 _ _ Pj). f_equal; symmetry; apply rho_sv; auto; rewrite Pj; simpl; auto.
  Qed.
  Lemma sub_u p : In u (A' p) ->
    here sub' p u /\ asc (sv sub' p u) /\ (u < n -> nth_error leaf u = Some (sv sub' p u)) /\
    (forall k0 k1, Permutation (A' u) [p; k0; k1] -> sv sub' p u = sunion (sv sub' u k0) (sv sub' u k1)).
  Proof.
    intros H. assert (Hp : In p (A' u)) by (apply (@view_edge _ _ _ _ _ _ exch_view H)).
    destruct exch_A as (Eu & Ev & Ec0 & Ec1). destruct neqs as ((N1 & N2 & N3 & N4 & N5) & (N6 & N7 & N8 & N9) & (N10 & N11 & N12) & (N13 & N14) & N15).
    assert (Bx : ~ bad u x /\ ~ bad x u) by (unfold bad; simpl; split; intuition congruence).
    assert (By : ~ bad v y) by (unfold bad; simpl; intuition congruence).
    assert (Ix : In x (A u)) by (rewrite Eu; simpl; auto). assert (Ix' : In u (A x)) by (apply (@view_edge _ _ _ _ _ _ V Ix)).
    assert (Iy : In y (A v)) by (rewrite Ev; simpl; auto).
    assert (F1 : sv sub' u c1 = sv sub v c1) by (unfold sv; now rewrite S3).
    assert (F2 : sv sub' u v = sunion (sv sub u c0) (sv sub v y)) by (unfold sv at 1; now rewrite S6).
    assert (F3 : sv sub' u x = sv sub u x) by (unfold sv; now rewrite keep_get by (auto; apply Bx)).
    assert (F4 : sv sub' v u = sunion (sv sub v c1) (sv sub u x)) by (unfold sv at 1; now rewrite S5).
    assert (F5 : sv sub' c1 u = sv sub c1 v) by (unfold sv; now rewrite S4).
    assert (F6 : sv sub' x u = sv sub x u) by (unfold sv; now rewrite keep_get by (auto; apply Bx)).
    assert (Nn : n <= u) by apply V.
    assert (Pc1u : Permutation (A v) [c1; u; y]) by (rewrite Ev; apply perm_swap).
    assert (Pvu : Permutation (A u) [v; c0; x]) by auto.
    assert (Puv' : Permutation (A v) [u; c1; y]) by auto.
    assert (Pxu : Permutation (A u) [x; v; c0]).
    { rewrite Eu. apply perm_trans with [v; x; c0]; [apply perm_skip, perm_swap|apply perm_swap]. }
    assert (Ic1 : In v (A c1)) by (rewrite Ec1; simpl; auto). assert (Iv : In u (A v)) by (rewrite Ev; simpl; auto). assert (Iu : In v (A u)) by (rewrite Eu; simpl; auto).
    pose proof (proj2 (proj2 (proj2 (SK c1 v Ic1))) _ _ Pc1u) as W1.
    pose proof (proj2 (proj2 (proj2 (SK v u Iv))) _ _ Pvu) as W2.
    pose proof (proj2 (proj2 (proj2 (SK x u Ix'))) _ _ Pxu) as W3.
    pose proof (proj2 (proj2 (proj2 (SK u v Iu))) _ _ Puv') as W4.
    assert (AC : forall s t : nset, asc s -> asc t -> (forall z, In z s <-> In z t) -> s = t) by (intros; apply asc_ext; auto).
    rewrite Hu in Hp. destruct Hp as [<-|[<-|[<-|[]]]].
    - split; [unfold here; rewrite S5; discriminate|]. rewrite F4. split; [apply sunion_asc|]. split; [lia|].
      intros k0 k1 Pk. rewrite Hu in Pk. apply Permutation_cons_inv in Pk. apply Permutation_sym, perm_two in Pk as [E|E]; injection E as -> ->; rewrite F1, F3; auto using sunion_comm.
    - split; [unfold here; rewrite S4; apply (SK c1 v Ic1)|]. rewrite F5. split; [apply (SK c1 v Ic1)|]. split; [lia|].
      intros k0 k1 Pk. rewrite Hu in Pk. rewrite perm_swap in Pk. apply Permutation_cons_inv in Pk. apply Permutation_sym, perm_two in Pk as [E|E]; injection E as -> ->; rewrite F2, F3, W1, W2;
        (apply AC; [apply sunion_asc|apply sunion_asc|intros z; rewrite !sunion_In; tauto]).
    - split; [unfold here; rewrite keep_get by (auto; apply Bx); apply (SK x u Ix')|]. rewrite F6. split; [apply (SK x u Ix')|]. split; [lia|].
      intros k0 k1 Pk. rewrite Hu in Pk. assert (Pk' : Permutation [x; v; c1] [x; k0; k1]).
      { rewrite <- Pk. apply perm_trans with [v; x; c1]; [apply perm_swap|apply perm_skip, perm_swap]. }
      apply Permutation_cons_inv in Pk'. apply Permutation_sym, perm_two in Pk' as [E|E]; injection E as -> ->; rewrite F1, F2, W3, W4;
        (apply AC; [apply sunion_asc|apply sunion_asc|intros z; rewrite !sunion_In; tauto]).
  Qed.
End Exchange.
Section ExchangeP.
  Variables (n : nat) (A A' : nat -> list nat) (C X D Y : ut) (u v : nat).
  Notation c0 := (uid C).
  Notation c1 := (uid D).
  Notation x := (uid X).
  Notation y := (uid Y).
  Hypothesis V : view n A (UN u C X) (UN v D Y).
  Hypothesis Hu : Permutation (A' u) [v; c1; x].
  Hypothesis Hv : Permutation (A' v) [u; c0; y].
  Hypothesis Hc0 : Permutation (A' c0) (v :: kids C).
  Hypothesis Hc1 : Permutation (A' c1) (u :: kids D).
  Hypothesis Hz : forall z, z <> u -> z <> v -> z <> c0 -> z <> c1 -> A' z = A z.
  Notation bad := (bad C D u v).
  Notation new := (new C D u v).
  Notation rho := (rho C D u v).
  (** parents *)
  Variables (P P' : nat -> option nat).
  Hypothesis K : par_ok A P.
  Hypothesis Pz : forall z, z <> u -> z <> v -> z <> c0 -> z <> c1 -> P' z = P z.
  Hypothesis Pc0 : P' c0 = if match P c0 with Some p => p =? u | None => false end then Some v else P c0.
  Hypothesis Pc1 : P' c1 = if match P c1 with Some p => p =? v | None => false end then Some u else P c1.
  Hypothesis Puv : (P u = Some v /\ P v = Some u -> P' u = Some v /\ P' v = Some u) /\
    (P u = Some v /\ P v = Some c1 -> P' u = Some c1 /\ P' v = Some u) /\
    (P u = Some v /\ P v = Some y -> P' u = Some v /\ P' v = Some y) /\
    (P u = Some c0 /\ P v = Some u -> P' u = Some v /\ P' v = Some c0) /\
    (P u = Some x /\ P v = Some u -> P' u = Some x /\ P' v = Some u).
  Lemma five : (P u = Some v /\ P v = Some u) \/ (P u = Some v /\ P v = Some c1) \/ (P u = Some v /\ P v = Some y) \/
    (P u = Some c0 /\ P v = Some u) \/ (P u = Some x /\ P v = Some u).
  Proof.
    destruct (@exch_A n A C X D Y u v V) as (Eu & Ev & Ec0 & Ec1). destruct (@neqs n A C X D Y u v V) as ((N1 & N2 & N3 & N4 & N5) & (N6 & N7 & N8 & N9) & (N10 & N11 & N12) & (N13 & N14) & N15).
    destruct (proj2 K u) as (p & Ep & Ip); [intros E; rewrite E in Eu; apply Permutation_nil_cons in Eu; auto|].
    destruct (proj2 K v) as (q & Eq & Iq); [intros E; rewrite E in Ev; apply Permutation_nil_cons in Ev; auto|].
    rewrite Eu in Ip. rewrite Ev in Iq.
    assert (O : P u = Some v \/ P v = Some u) by (apply (proj1 K); rewrite Eu; simpl; auto).
    rewrite Ep, Eq in *. destruct Ip as [<-|[<-|[<-|[]]]], Iq as [<-|[<-|[<-|[]]]]; auto 7; destruct O; congruence.
  Qed.
  Lemma down z : z = u \/ z = v -> forall w, In w (A z) -> P z <> Some w -> P w = Some z.
  Proof. intros _ w Hw N. destruct (proj1 K z w Hw); congruence. Qed.
  Lemma keep_par p q : In q (A p) -> ~ bad p q -> P p = Some q -> P' p = Some q.
  Proof.
    intros H B E. destruct (@exch_A n A C X D Y u v V) as (Eu & Ev & Ec0 & Ec1). destruct (@neqs n A C X D Y u v V) as ((N1 & N2 & N3 & N4 & N5) & (N6 & N7 & N8 & N9) & (N10 & N11 & N12) & (N13 & N14) & N15).
    unfold UctSwitch2.bad in *. simpl in *. destruct Puv as (Q1 & Q2 & Q3 & Q4 & Q5).
    destruct (Nat.eq_dec p u) as [->|Nu].
    { rewrite Eu in H. destruct H as [<-|[<-|[<-|[]]]]; try (exfalso; apply B; auto 10; fail). apply Q5. split; auto.
      apply down with (z := u); auto; [rewrite Eu; simpl; auto|congruence]. }
    destruct (Nat.eq_dec p v) as [->|Nv].
    { rewrite Ev in H. destruct H as [<-|[<-|[<-|[]]]]; try (exfalso; apply B; auto 10; fail). apply Q3. split; auto.
      apply down with (z := v); auto; [rewrite Ev; simpl; auto|congruence]. }
    destruct (Nat.eq_dec p c0) as [->|Nc0].
    { rewrite Pc0, E. destruct (Nat.eqb_spec q u) as [->|]; auto. exfalso; apply B; auto 10. }
    destruct (Nat.eq_dec p c1) as [->|Nc1].
    { rewrite Pc1, E. destruct (Nat.eqb_spec q v) as [->|]; auto. exfalso; apply B; auto 10. }
    rewrite Pz; auto.
  Qed.
  Lemma par_c0 : P c0 = Some u -> P' c0 = Some v.
  Proof. intros E. rewrite Pc0, E, Nat.eqb_refl. auto. Qed.
  Lemma par_c1 : P c1 = Some v -> P' c1 = Some u.
  Proof. intros E. rewrite Pc1, E, Nat.eqb_refl. auto. Qed.
  Lemma new_oriented : (P' u = Some v \/ P' v = Some u) /\ (P' u = Some c1 \/ P' c1 = Some u) /\ (P' v = Some c0 \/ P' c0 = Some v).
  Proof.
    destruct (@exch_A n A C X D Y u v V) as (Eu & Ev & Ec0 & Ec1). destruct (@neqs n A C X D Y u v V) as ((N1 & N2 & N3 & N4 & N5) & (N6 & N7 & N8 & N9) & (N10 & N11 & N12) & (N13 & N14) & N15).
    destruct Puv as (Q1 & Q2 & Q3 & Q4 & Q5).
    assert (D0 : P u <> Some c0 -> P' c0 = Some v).
    { intros E. apply par_c0. apply down with (z := u); auto. rewrite Eu; simpl; auto. }
    assert (D1 : P v <> Some c1 -> P' c1 = Some u).
    { intros E. apply par_c1. apply down with (z := v); auto. rewrite Ev; simpl; auto. }
    destruct five as [F|[F|[F|[F|F]]]]; [apply Q1 in F as F'|apply Q2 in F as F'|apply Q3 in F as F'|apply Q4 in F as F'|apply Q5 in F as F'];
      destruct F as [F1 F2], F' as [F3 F4]; rewrite F1 in D0; rewrite F2 in D1; repeat split; auto; try (right; apply D0; congruence); try (right; apply D1; congruence).
  Qed.
  Lemma exch_par : (forall p q, In q (A' p) -> ~ new p q -> In q (A p) /\ ~ bad p q) -> par_ok A' P'.
  Proof.
    intros Back. destruct (@exch_A n A C X D Y u v V) as (Eu & Ev & Ec0 & Ec1). destruct (@neqs n A C X D Y u v V) as ((N1 & N2 & N3 & N4 & N5) & (N6 & N7 & N8 & N9) & (N10 & N11 & N12) & (N13 & N14) & N15).
    destruct new_oriented as (O1 & O2 & O3). split.
    - intros p q H. assert (Dn : new p q \/ ~ new p q).
      { unfold UctSwitch2.new. destruct (in_dec (fun a b : nat * nat => ltac:(decide equality; apply Nat.eq_dec)) (p, q) [(u, v); (v, u); (u, c1); (c1, u); (v, c0); (c0, v)]); auto. }
      destruct Dn as [Dn|Dn].
      + unfold UctSwitch2.new in Dn. simpl in Dn. destruct Dn as [E|[E|[E|[E|[E|[E|[]]]]]]]; injection E as <- <-; tauto.
      + destruct (Back _ _ H Dn) as [Hp B]. assert (Bs : ~ bad q p). { unfold UctSwitch2.bad in *. simpl in *. intuition congruence. }
        assert (Hq : In p (A q)) by (apply (@view_edge _ _ _ _ _ _ V Hp)).
        destruct (proj1 K _ _ Hp) as [E|E]; [left|right]; apply keep_par; auto.
    - intros z Hz'. assert (Az : A z <> []).
      { destruct (Nat.eq_dec z u) as [->|]; [intros E; rewrite E in Eu; apply Permutation_nil_cons in Eu; auto|].
        destruct (Nat.eq_dec z v) as [->|]; [intros E; rewrite E in Ev; apply Permutation_nil_cons in Ev; auto|].
        destruct (Nat.eq_dec z c0) as [->|]; [intros E; rewrite E in Ec0; apply Permutation_nil_cons in Ec0; auto|].
        destruct (Nat.eq_dec z c1) as [->|]; [intros E; rewrite E in Ec1; apply Permutation_nil_cons in Ec1; auto|].
        rewrite <- Hz; auto. }
      destruct (proj2 K z Az) as (p & Ep & Ip).
      assert (Db : bad z p \/ ~ bad z p).
      { unfold UctSwitch2.bad. destruct (in_dec (fun a b : nat * nat => ltac:(decide equality; apply Nat.eq_dec)) (z, p) [(u, v); (v, u); (u, c0); (c0, u); (v, c1); (c1, v)]); auto. }
      destruct Db as [Db|Db]; [|exists p; split; [apply keep_par; auto|apply (@keep_edge n A A' C X D Y u v); auto]].
      destruct Puv as (Q1 & Q2 & Q3 & Q4 & Q5).
      assert (Zu : exists p, P' u = Some p /\ In p (A' u)).
      { destruct five as [F|[F|[F|[F|F]]]]; [apply Q1 in F|apply Q2 in F|apply Q3 in F|apply Q4 in F|apply Q5 in F]; destruct F as [F _]; rewrite F; eexists; (split; [reflexivity|rewrite Hu; simpl; auto]). }
      assert (Zv : exists p, P' v = Some p /\ In p (A' v)).
      { destruct five as [F|[F|[F|[F|F]]]]; [apply Q1 in F|apply Q2 in F|apply Q3 in F|apply Q4 in F|apply Q5 in F]; destruct F as [_ F]; rewrite F; eexists; (split; [reflexivity|rewrite Hv; simpl; auto]). }
      unfold UctSwitch2.bad in Db. simpl in Db. destruct Db as [E|[E|[E|[E|[E|[E|[]]]]]]]; injection E as <- <-; auto.
      + exists v. split; [now apply par_c0|]. rewrite Hc0. left; auto.
      + exists u. split; [now apply par_c1|]. rewrite Hc1. left; auto.
  Qed.

  Lemma rho_par q p : q <> u -> q <> v -> In p (A q) -> P q = Some p -> P' q = Some (rho q p).
  Proof.
    intros Nu Nv Hp E. destruct (@neqs n A C X D Y u v V) as ((N1 & N2 & N3 & N4 & N5) & (N6 & N7 & N8 & N9) & (N10 & N11 & N12) & (N13 & N14) & N15). unfold UctSwitch2.rho.
    destruct (Nat.eqb_spec q c0) as [->|E0].
    { simpl. rewrite (proj2 (Nat.eqb_neq c0 c1)) by congruence. simpl. rewrite Pc0, E. destruct (p =? u); auto. }
    simpl. destruct (Nat.eqb_spec q c1) as [->|E1]; simpl.
    { rewrite Pc1, E. destruct (p =? v); auto. }
    rewrite Pz; auto.
  Qed.
End ExchangeP.
Section Exchange2.
  Variables (n : nat) (A A' : nat -> list nat) (C X D Y : ut) (u v : nat).
  Notation c0 := (uid C).
  Notation c1 := (uid D).
  Notation x := (uid X).
  Notation y := (uid Y).
  Hypothesis V : view n A (UN u C X) (UN v D Y).
  Hypothesis Hu : Permutation (A' u) [v; c1; x].
  Hypothesis Hv : Permutation (A' v) [u; c0; y].
  Hypothesis Hc0 : Permutation (A' c0) (v :: kids C).
  Hypothesis Hc1 : Permutation (A' c1) (u :: kids D).
  Hypothesis Hz : forall z, z <> u -> z <> v -> z <> c0 -> z <> c1 -> A' z = A z.
  Variables (leaf : list nset) (sub sub' : list ((nat * nat) * nset)).
  Hypothesis SK : sub_ok n leaf A sub.
  Hypothesis S1 : get (v, c0) sub' = get (u, c0) sub.
  Hypothesis S2 : get (c0, v) sub' = get (c0, u) sub.
  Hypothesis S3 : get (u, c1) sub' = get (v, c1) sub.
  Hypothesis S4 : get (c1, u) sub' = get (c1, v) sub.
  Hypothesis S5 : get (v, u) sub' = Some (sunion (sv sub v c1) (sv sub u x)).
  Hypothesis S6 : get (u, v) sub' = Some (sunion (sv sub u c0) (sv sub v y)).
  Hypothesis S7 : forall p q, ~ (In p [u; v; c0; c1] /\ In q [u; v; c0; c1]) -> get (p, q) sub' = get (p, q) sub.
  Lemma exch_sub : sub_ok n leaf A' sub'.
  Proof.
    intros p q H. destruct (Nat.eq_dec q u) as [->|Nu]; [|destruct (Nat.eq_dec q v) as [->|Nv]].
    - eapply (@sub_u n A A' C X D Y u v); eauto.
    - eapply (@sub_u n A A' D Y C X v u); eauto. 
      + now apply view_sym.
      + intros p' q' N. apply S7. simpl in *. tauto.
    - eapply (@sub_q n A A' C X D Y u v); eauto.
  Qed.
  Lemma back_edge p q : In q (A' p) -> ~ new C D u v p q -> In q (A p) /\ ~ bad C D u v p q.
  Proof.
    intros H N. assert (V' : view n A' (UN u D X) (UN v C Y)) by (eapply exch_view; eauto).
    destruct (@exch_A n A C X D Y u v V) as (Eu & Ev & Ec0 & Ec1).
    apply (@keep_edge n A' A D X C Y u v V' Eu Ev); auto. intros z Z1 Z2 Z3 Z4. symmetry. auto.
  Qed.
End Exchange2.
