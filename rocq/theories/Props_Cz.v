(** * C65: add_CZ_rotations couples every diagonal pair of neighbours once

    [add_CZ_rotations] is in ModelCz.v, [cz_gate] in ModelQec.v (its meaning is C63_cz). *)
From Coq Require Import Reals Lra Lia Permutation Sorted.
From Verif Require Import Base Scalar NetSpec ModelArray ModelTN ModelVal ModelContract CircSpec ModelCircuit CircSem CircShape CircOp CircMain CircBuild CircUse Complex ModelGates ModelQec IdleValid Props_Circuit Props_Qec ModelCz.
Set Implicit Arguments.

(** ** Specification *)
(** the four qubits around a qubit *)
Definition neighbours (a b : coord) : Prop := (fst b = fst a + 1 \/ fst b = fst a - 1)%Z /\ (snd b = snd a + 1 \/ snd b = snd a - 1)%Z.
(** the angle that the caller meant for a qubit *)
Definition means (angles : cz_angles) (q : coord) (a : cz_angle) : Prop :=
  match angles with
  | AnglesNone => a = NoAngle
  | AnglesOf d => exists x, d q = Some x /\ a = OfQubit x
  | AnglesOne x => a = OneAngle x
  end.
Definition coupling (t : Z) (a : cz_angle) (q1 q2 : coord) : name * gate (op CK) :=
  (NT [NI t; NT [coord_name q1; coord_name q2]], Gate t [coord_name q1; coord_name q2] (cz_gate a)).

(** ** Proofs *)
Lemma near q1 q2 : diagonal_to q1 q2 = true <-> neighbours q1 q2.
Proof. unfold diagonal_to, neighbours. rewrite andb_true_iff, !Z.eqb_eq. lia. Qed.
Lemma coord_inj p q : coord_name p = coord_name q -> p = q.
Proof. destruct p, q. unfold coord_name. cbn. intros X. injection X as -> ->. reflexivity. Qed.
Lemma key_inj t a b q1 q2 p1 p2 : fst (coupling t a q1 q2) = fst (coupling t b p1 p2) -> q1 = p1 /\ q2 = p2.
Proof. destruct q1, q2, p1, p2. unfold coupling, coord_name. cbn. intros X. injection X as -> -> -> ->. auto. Qed.
Lemma cz_for_ok angles q : (exists a, means angles q a) -> exists a, means angles q a /\ cz_for angles q = Ok (cz_gate a).
Proof.
  unfold means, cz_for. destruct angles as [|d|x]; intros (a & H).
  - exists NoAngle. auto.
  - destruct H as (x & E & ->). exists (OfQubit x). rewrite E. eauto.
  - exists (OneAngle x). auto.
Qed.
Lemma means_fun angles q a b : means angles q a -> means angles q b -> a = b.
Proof. unfold means. destruct angles as [|d|x]; [congruence| |congruence]. intros (x & E & ->) (y & F & ->). congruence. Qed.
Lemma couple t a q1 q2 c : neighbours q1 q2 -> ~ In (fst (coupling t a q1 q2)) (keys c) ->
  c_append (cz_gate a) [coord_name q1; coord_name q2] (Some t) None c = Ok (c ++ [coupling t a q1 q2]).
Proof.
  intros Hn N. unfold c_append, append.
  assert (D : nodupb [coord_name q1; coord_name q2] = true).
  { apply nodupb_NoDup. repeat constructor; simpl; [|tauto]. intros [X|[]]. apply coord_inj in X. subst. destruct Hn as [H _]. lia. }
  rewrite D. assert (L : op_len (cz_gate a) = Ok 2) by (destruct a; reflexivity). rewrite L. cbn [negb bind length Nat.eqb]. f_equal. apply set_fresh. exact N.
Qed.
Lemma low_ok t a q1 low : forall c, NoDup low -> (forall q2, In q2 low -> neighbours q1 q2 -> ~ In (fst (coupling t a q1 q2)) (keys c)) ->
  exists es, cz_low (cz_gate a) q1 low (Some t) c = Ok (c ++ es) /\ NoDup (keys es) /\
    (forall x, In x es <-> exists q2, In q2 low /\ neighbours q1 q2 /\ x = coupling t a q1 q2).
Proof.
  induction low as [|q2 r IH]; intros c Nd Fr.
  - exists []. simpl. rewrite app_nil_r. split; auto. split; [constructor|]. intros x. split; [intros []|intros (q & [] & _)].
  - inversion Nd as [|? ? Nq Nr]; subst. cbn [cz_low]. destruct (diagonal_to q1 q2) eqn:E.
    + apply near in E. rewrite couple by (auto; apply Fr; simpl; auto). cbn [bind]. destruct (IH (c ++ [coupling t a q1 q2])) as (es & Ee & Ne & Ce); auto.
      { intros q I H. unfold keys. rewrite map_app, in_app_iff. intros [X|[X|[]]]; [revert X; apply Fr; simpl; auto|]. apply (@key_inj t a a) in X as [_ X]. subst. contradiction. }
      exists (coupling t a q1 q2 :: es). split; [rewrite Ee, <- app_assoc; reflexivity|]. split.
      * simpl. constructor; auto. intros I. apply in_map_iff in I as (x & Ex & Ix). apply Ce in Ix as (q & Iq & _ & ->). apply (@key_inj t a a) in Ex as [_ Ex]. subst. contradiction.
      * intros x. simpl. rewrite Ce. split.
        -- intros [<-|(q & I & H & ->)]; [exists q2; auto|exists q; auto].
        -- intros (q & [<-|I] & H & ->); [auto|right; exists q; auto].
    + cbn [bind]. destruct (IH c) as (es & Ee & Ne & Ce); auto; [intros; apply Fr; simpl; auto|]. exists es. split; auto. split; auto. intros x. rewrite Ce. split.
      * intros (q & I & H & ->). exists q. simpl. auto.
      * intros (q & [<-|I] & H & ->); [apply near in H; congruence|exists q; auto].
Qed.

(** every pair of diagonal neighbours, one in each group, gets exactly one gate at the given time, with the angle meant for the first qubit; nothing else changes *)
Theorem C65_couples high low t angles c : NoDup high -> NoDup low -> (forall q1, In q1 high -> exists a, means angles q1 a) ->
  (forall q1 q2, In q1 high -> In q2 low -> neighbours q1 q2 -> ~ In (NT [NI t; NT [coord_name q1; coord_name q2]]) (keys c)) ->
  exists es, add_CZ_rotations high low (Some t) angles c = Ok (c ++ es) /\ NoDup (keys es) /\
    (forall x, In x es <-> exists q1 q2 a, In q1 high /\ In q2 low /\ neighbours q1 q2 /\ means angles q1 a /\ x = coupling t a q1 q2).
Proof.
  intros Nh Nl Hm. revert c. induction high as [|q1 r IH]; intros c Fr.
  - exists []. simpl. rewrite app_nil_r. split; auto. split; [constructor|]. intros x. split; [intros []|intros (q & q2 & a & [] & _)].
  - inversion Nh as [|? ? Nq Nr]; subst. destruct (cz_for_ok _ _ (Hm q1 (or_introl eq_refl))) as (a & Ma & Ea). cbn [add_CZ_rotations]. rewrite Ea. cbn [bind].
    destruct (@low_ok t a q1 low c Nl) as (e1 & E1 & N1 & C1); [intros; apply Fr; simpl; auto|]. rewrite E1. cbn [bind].
    destruct (IH Nr (fun q I => Hm q (or_intror I)) (c ++ e1)) as (e2 & E2 & N2 & C2).
    { intros q q2 I I2 H. unfold keys. rewrite map_app, in_app_iff. intros [X|X]; [revert X; apply Fr; simpl; auto|].
      apply in_map_iff in X as (x & Ex & Ix). apply C1 in Ix as (q' & _ & _ & ->). 
      apply (@key_inj t a a q1 q' q q2) in Ex as [Ex _]. subst. contradiction. }
    exists (e1 ++ e2). split; [rewrite E2, <- app_assoc; reflexivity|]. split.
    + unfold keys. rewrite map_app. apply NoDup_app_iff. split; auto. split; auto. intros k I1 I2. apply in_map_iff in I1 as (x & <- & I1). apply in_map_iff in I2 as (y & Ey & I2).
      apply C1 in I1 as (q2 & _ & _ & ->). apply C2 in I2 as (q & q3 & b & I & _ & _ & _ & ->).
      apply key_inj in Ey as [Ey _]. subst. contradiction.
    + intros x. rewrite in_app_iff, C1, C2. split.
      * intros [(q2 & I & H & ->)|(q & q2 & b & I & I2 & H & M & ->)]; [exists q1, q2, a; simpl; auto|exists q, q2, b; simpl; auto 6].
      * intros (q & q2 & b & [<-|I] & I2 & H & M & ->); [left; exists q2; rewrite (means_fun _ _ _ _ M Ma); auto|right; exists q, q2, b; auto].
Qed.
Print Assumptions C65_couples.

(** if no qubit has two neighbours in the other group, no qubit is used twice at the time step by the new gates *)
Theorem C65_once high low t angles es :
  (forall x, In x es <-> exists q1 q2 a, In q1 high /\ In q2 low /\ neighbours q1 q2 /\ means angles q1 a /\ x = coupling t a q1 q2) ->
  (forall q, In q high -> ~ In q low) -> 
  (forall h l h' l', In h high -> In h' high -> In l low -> In l' low -> neighbours h l -> neighbours h' l' -> (h = h' <-> l = l')) ->
  forall x y, In x es -> In y es -> x <> y -> forall q, In q (g_qubits (snd x)) -> ~ In q (g_qubits (snd y)).
Proof.
  intros Ch Dj One x y Ix Iy D q Qx Qy. apply Ch in Ix as (h & l & a & Ih & Il & H & M & ->). apply Ch in Iy as (h' & l' & b & Ih' & Il' & H' & M' & ->).
  assert (E : h = h' \/ l = l').
  { destruct Qx as [<-|[<-|[]]], Qy as [X|[X|[]]]; apply coord_inj in X; [left; congruence|exfalso; apply (Dj h Ih); congruence|exfalso; apply (Dj h' Ih'); congruence|right; congruence]. }
  assert (h = h' /\ l = l') as [-> ->] by (pose proof (One h l h' l' Ih Ih' Il Il' H H'); tauto).
  apply D. rewrite (means_fun _ _ _ _ M M'). reflexivity.
Qed.
Print Assumptions C65_once.

(** started from an empty circuit, the result is valid exactly if no qubit has two neighbours in the other group *)
Definition one_neighbour (high low : list coord) : Prop :=
  forall h l h' l', In h high -> In h' high -> In l low -> In l' low -> neighbours h l -> neighbours h' l' -> (h = h' <-> l = l').
Lemma pairs_of {A} (R : A -> A -> Prop) l : NoDup l -> (forall x y, In x l -> In y l -> x <> y -> R x y) -> ForallOrdPairs R l.
Proof.
  induction 1 as [|x l N D IH]; intros H; constructor; [|apply IH; intros; apply H; simpl; auto].
  apply Forall_forall. intros y I. apply H; simpl; auto. intros ->. contradiction.
Qed.
Lemma coords_compare p q : p <> q -> exists b, name_lt (coord_name p) (coord_name q) = Ok b.
Proof.
  destruct p as [a b], q as [c d]. intros N. unfold coord_name. cbn. repeat match goal with |- context [if ?x then _ else _] => destruct x end; cbn; eauto.
Qed.
Lemma word_cz t a q1 q2 q : let w := word_at (Act (g_qubits (snd (coupling t a q1 q2))) (map role_word (shape_or (g_op (snd (coupling t a q1 q2))))) (op_amp (g_op (snd (coupling t a q1 q2))))) q in
  w = [] \/ w = [LI; LO].
Proof.
  assert (E : map role_word (shape_or (cz_gate a)) = [[LI; LO]; [LI; LO]]) by (destruct a; reflexivity).
  unfold coupling, word_at. cbn [snd g_op g_qubits on words]. rewrite E. cbn [combine get]. destruct (eqb q (coord_name q1)); auto. destruct (eqb q (coord_name q2)); auto.
Qed.
Lemma alternating_io ws : (forall w, In w ws -> w = [] \/ w = [LI; LO]) -> alternating (concat ws) /\ (concat ws = [] \/ exists r, concat ws = LI :: r).
Proof.
  induction ws as [|w ws IH]; intros H; [simpl; auto|]. destruct IH as [A S]; [intros; apply H; simpl; auto|]. cbn [concat].
  destruct (H w (or_introl eq_refl)) as [->| ->]; [auto|]. split; [|right; eexists; reflexivity].
  destruct S as [S|(r & S)]; rewrite S in *; cbn; [split; [discriminate|exact I]|]. split; [discriminate|]. split; [discriminate|]. exact A.
Qed.
Theorem C65_valid high low t angles : NoDup high -> NoDup low -> (forall q, In q high -> ~ In q low) -> (forall q1, In q1 high -> exists a, means angles q1 a) ->
  exists c b, add_CZ_rotations high low (Some t) angles [] = Ok c /\ is_ok (op_shape (OCirc c)) = Ok b /\ (b = true <-> one_neighbour high low).
Proof.
  intros Nh Nl Dj Hm. destruct (@C65_couples high low t angles [] Nh Nl Hm) as (c & E & Ne & Ch); [intros ? ? _ _ _ []|]. cbn [app] in E.
  assert (Hc : forall k g, In (k, g) c -> exists q1 q2 a, In q1 high /\ In q2 low /\ neighbours q1 q2 /\ means angles q1 a /\ (k, g) = coupling t a q1 q2) by (intros k g I; apply Ch; exact I).
  assert (W : op_wf (OCirc c)).
  { constructor; [exact Ne| |]; intros k g I; destruct (Hc k g I) as (q1 & q2 & a & _ & _ & H & _ & X); injection X as -> ->; cbn [g_op g_qubits].
    - apply cz_on.
    - split; [|destruct a; reflexivity]. repeat constructor; simpl; [|tauto]. intros [X|[]]. apply coord_inj in X. subst. destruct H as [H _]. lia. }
  assert (U : forall x, used c x -> exists p, x = coord_name p).
  { intros x (k & g & I & Ix). destruct (Hc k g I) as (q1 & q2 & a & _ & _ & _ & _ & X). injection X as -> ->. destruct Ix as [<-|[<-|[]]]; eauto. }
  assert (Nc : names_compare c).
  { intros x y Ux Uy D. destruct (U x Ux) as (p & ->), (U y Uy) as (q & ->). apply coords_compare. intros ->. apply D. reflexivity. }
  assert (T : forall p, In p c -> g_time (snd p) = t).
  { intros [k g] I. destruct (Hc k g I) as (q1 & q2 & a & _ & _ & _ & _ & X). injection X as -> ->. reflexivity. }
  assert (TO : time_ordered c (in_order c)) by (split; [apply in_order_perm|apply in_order_sorted]).
  destruct (C35_valid W Nc TO) as (b & Eb & Hb). exists c, b. split; [exact E|]. split; [exact Eb|]. rewrite Hb. clear b Eb Hb. split.
  - intros [F _] h l h' l' Ih Ih' Il Il' H H'. destruct (Hm h Ih) as (a & M), (Hm h' Ih') as (a' & M').
    assert (I1 : In (coupling t a h l) c) by (apply Ch; exists h, l, a; auto). assert (I2 : In (coupling t a' h' l') c) by (apply Ch; exists h', l', a'; auto).
    assert (S : forall p q, In p c -> In q c -> (g_time (snd p) = g_time (snd q) -> forall x, In x (g_qubits (snd p)) -> ~ In x (g_qubits (snd q))) ->
      forall x, In x (g_qubits (snd p)) -> ~ In x (g_qubits (snd q))) by (intros p q Ip Iq R; apply R; rewrite (T p Ip), (T q Iq); reflexivity).
    destruct (ForallOrdPairs_In F _ _ I1 I2) as [X|[R|R]].
    + apply (f_equal fst), key_inj in X as [-> ->]. tauto.
    + pose proof (S _ _ I1 I2 R) as R'. split; intros <-; exfalso; [apply (R' (coord_name h))|apply (R' (coord_name l))]; simpl; auto.
    + pose proof (S _ _ I2 I1 R) as R'. split; intros <-; exfalso; [apply (R' (coord_name h))|apply (R' (coord_name l))]; simpl; auto.
  - intros One. split.
    + apply pairs_of; [eapply NoDup_map_inv; exact Ne|]. intros x y Ix Iy D _ q. exact (@C65_once high low t angles c Ch Dj One x y Ix Iy D q).
    + intros q. unfold history, acts_of. rewrite map_map. apply alternating_io. intros w Iw. apply in_map_iff in Iw as ([k g] & <- & I).
      apply (Permutation_in _ (Permutation_sym (in_order_perm c))) in I. destruct (Hc k g I) as (q1 & q2 & a & _ & _ & _ & _ & X). rewrite X. apply word_cz.
Qed.
Print Assumptions C65_valid.

(** two data qubits and two ancillas; each data qubit has one ancilla next to it *)
Definition ex_high : list coord := [(0, 0); (4, 0)]%Z.
Definition ex_low : list coord := [(1, 1); (5, -1); (2, 2)]%Z.
Example C65_somewhere : NoDup ex_high /\ NoDup ex_low /\
  add_CZ_rotations ex_high ex_low (Some 3%Z) (AnglesOne (1 / 100)) [] = Ok [coupling 3 (OneAngle (1 / 100)) (0, 0)%Z (1, 1)%Z; coupling 3 (OneAngle (1 / 100)) (4, 0)%Z (5, -1)%Z] /\
  (forall q, In q ex_high -> ~ In q ex_low) /\
  (forall h l h' l', In h ex_high -> In h' ex_high -> In l ex_low -> In l' ex_low -> neighbours h l -> neighbours h' l' -> (h = h' <-> l = l')) /\
  op_shape (OCirc [coupling 3 (OneAngle (1 / 100)) (0, 0)%Z (1, 1)%Z; coupling 3 (OneAngle (1 / 100)) (4, 0)%Z (5, -1)%Z]) = Ok (repeat (RW [LI; LO]) 4).
Proof.
  split; [repeat constructor; simpl; intuition discriminate|]. split; [repeat constructor; simpl; intuition discriminate|]. split; [reflexivity|].
  split; [intros q [<-|[<-|[]]]; simpl; intuition discriminate|]. split; [|reflexivity].
  intros h l h' l' Ih Ih' Il Il' H H'. unfold neighbours in *. repeat destruct Ih as [<-|Ih]; try contradiction; repeat destruct Ih' as [<-|Ih']; try contradiction;
    repeat destruct Il as [<-|Il]; try contradiction; repeat destruct Il' as [<-|Il']; try contradiction; cbn [fst snd] in *; try lia; split; intros X; try reflexivity; discriminate.
Qed.

(** without that condition the circuit is not valid: the loop does not stop at the first neighbour, and all gates share one time step *)
Theorem C65_two_neighbours_refuted : exists high low t c, NoDup high /\ NoDup low /\ add_CZ_rotations high low (Some t) AnglesNone [] = Ok c /\
  op_shape (OCirc c) = Err ValueError.
Proof.
  exists [(0, 0)%Z], [(1, 1); (1, -1)]%Z, 0%Z. eexists. split; [repeat constructor; simpl; tauto|]. split; [repeat constructor; simpl; intuition discriminate|]. split; reflexivity.
Qed.
Print Assumptions C65_two_neighbours_refuted.

(** noise_model.py:181-186: the cross talk of all flux dances is added at one time step.  A data qubit D1 lies between a Z1 and a Z2, so it gets two gates at that time, and the circuit is not valid. *)
Definition group_of (q : coord) : coord := (fst q mod 4, snd q mod 4)%Z.
Theorem C65_cross_talk_refuted : exists d z1 z2, group_of d = (0, 0)%Z /\ group_of z1 = (1, 3)%Z /\ group_of z2 = (3, 1)%Z /\
  forall gamma, exists c1 c2, add_CZ_rotations [d] [z1] (Some 0%Z) (AnglesOne gamma) [] = Ok c1 /\ add_CZ_rotations [d] [z2] (Some 0%Z) (AnglesOne gamma) c1 = Ok c2 /\
  op_shape (OCirc c2) = Err ValueError.
Proof.
  exists (4, 4)%Z, (5, 3)%Z, (3, 5)%Z. split; [reflexivity|]. split; [reflexivity|]. split; [reflexivity|]. intros gamma. eexists. eexists. split; [reflexivity|]. split; reflexivity.
Qed.
Print Assumptions C65_cross_talk_refuted.
