(** Consequences for whole circuits: the amplitude as one sum, operations on different wires commute, composition
    and adjoint. *)
From Verif Require Import Base Scalar NetSpec Sums NetAlg OpsSpec CircSpec CircSum.
From Coq Require Import Sorted.
Set Implicit Arguments.

Section Order.
  Variable S : scalar.
  Notation env := (env (A := name)).
  Local Open Scope K_scope.
  Add Ring Kring2 : (kring S).

  Lemma place_notin qs bs q : ~ In q qs -> place qs bs q = 0%nat.
  Proof. intros N. unfold place. rewrite upds_notin; auto. Qed.
  Lemma place_map qs bs : NoDup qs -> length bs = length qs -> map (place qs bs) qs = bs.
  Proof. intros N L. unfold place. apply upds_map; auto. Qed.
  Lemma place_bit qs bs q : length bs = length qs -> Forall (fun b => b < 2)%nat bs -> (place qs bs q < 2)%nat.
  Proof.
    unfold place. assert (H : (env0 q < 2)%nat) by (unfold env0; lia). revert H. generalize (@env0 name) as s.
    revert bs; induction qs as [|x r IH]; intros [|b bs] s Hs L F; simpl in *; try discriminate; auto.
    inversion F; subst. apply IH; auto. unfold upd. destruct (eqb q x); auto.
  Qed.
  Lemma bits_place qs bs q : bits (length qs) bs -> (place qs bs q < 2)%nat.
  Proof. intros [L F]. apply place_bit; auto. Qed.

  Lemma eqb_app_nat (a b c d : list nat) : length a = length c -> eqb (a ++ b) (c ++ d) = eqb a c && eqb b d.
  Proof.
    revert c; induction a as [|x r IH]; intros [|y c] L; simpl in L; try discriminate; auto.
    cbn [app]. rewrite !eqb_cons, IH by lia. rewrite andb_assoc; auto.
  Qed.
  Lemma eqb_place f (s : env) qs bs : NoDup qs -> length bs = length qs ->
    eqb (map s (map f qs)) bs = forallb (fun q => Nat.eqb (s (f q)) (place qs bs q)) qs.
  Proof.
    intros N L. transitivity (eqb (map s (map f qs)) (map (place qs bs) qs)); [rewrite place_map; auto|].
    rewrite map_map. apply eqb_map.
  Qed.

  Lemma represents_amplitude Q (gs : list (act S)) d F D O o i :
    represents Q gs d F D O -> NoDup Q ->
    bits (length (wires_out Q gs)) o -> bits (length (wires_in Q gs)) i ->
    amplitude Q gs o i =
    esum (S := S) d (fun s => kdelta (eqb (map s (map O (wires_out Q gs) ++ map D (wires_in Q gs))) (o ++ i)) * F s) env0.
  Proof.
    intros R NQ Bo Bi. unfold amplitude.
    assert (Nwo : NoDup (wires_out Q gs)) by (apply NoDup_filter; auto).
    assert (Nwi : NoDup (wires_in Q gs)) by (apply NoDup_filter; auto).
    rewrite (rep_run R).
    - assert (Ed : dead_ok (history gs) Q (place (wires_out Q gs) o) = true).
      { apply forallb_forall. intros q Iq. apply after_ok_iff. intros N E. apply place_notin.
        unfold wires_out. rewrite filter_In. intros [_ X]. congruence. }
      rewrite Ed. assert (M1 : forall x : S, kdelta true * x = x) by (intros; cbn [kdelta]; ring). rewrite M1.
      apply esum_ext_all. intros s. unfold basis.
      transitivity (kdelta (outs_ok (history gs) O Q s (place (wires_out Q gs) o) &&
           forallb (fun q => Nat.eqb (look (history gs) D s (place (wires_out Q gs) o) q) (place (wires_in Q gs) i q)) Q) * F s).
      { rewrite kdelta_andb. ring. }
      f_equal. f_equal. rewrite map_app, eqb_app_nat by (rewrite !map_length; symmetry; apply Bo).
      rewrite (@eqb_place O s _ o Nwo) by apply Bo. rewrite (@eqb_place D s _ i Nwi) by apply Bi. f_equal.
      + unfold outs_ok. apply forallb_iff. split; intros H q Iq.
        * unfold wires_out in Iq. apply filter_In in Iq as [Iq E]. specialize (H q Iq). rewrite E in H. auto.
        * apply orb_impl. intros E. apply H. apply filter_In; auto.
      + apply forallb_iff. unfold look. split; intros H q Iq.
        * unfold wires_in in Iq. apply filter_In in Iq as [Iq E]. specialize (H q Iq).
          destruct (history gs q) as [|[]]; try discriminate. auto.
        * destruct (history gs q) as [|[] w] eqn:W; [| |].
          -- rewrite !place_notin; auto; unfold wires_in, wires_out; rewrite filter_In, W; intros [_ X]; discriminate.
          -- apply H. apply filter_In. rewrite W; auto.
          -- rewrite place_notin; auto. unfold wires_in; rewrite filter_In, W; intros [_ X]; discriminate.
    - intros s s' E. unfold basis. f_equal. apply forallb_iff.
      split; intros H q Iq; specialize (H q Iq); rewrite (E q) in *; auto.
    - intros q _. apply bits_place; auto.
  Qed.

  (** ** Sums over lists of bits *)
  Lemma esum_bits xs (f : env -> S) s :
    esum (qdom xs) f s = sumf (fun bs => f (upds s xs bs)) (indices (repeat 2%nat (length xs))).
  Proof.
    revert s; induction xs as [|x r IH]; intros s; simpl; [ring|].
    rewrite !sumf_app, !sumf_map. rewrite !IH. simpl. reflexivity.
  Qed.
  Lemma in_bits n bs : In bs (indices (repeat 2%nat n)) <-> bits n bs.
  Proof.
    revert bs; induction n as [|n IH]; intros bs; simpl.
    - split; [intros [<-|[]]; split; auto|]. intros [L _]. destruct bs; [auto|discriminate].
    - rewrite !in_app_iff, !in_map_iff. split.
      + intros [(c & <- & Ic)|[(c & <- & Ic)|[]]]; apply IH in Ic as [L F]; split; simpl; auto.
      + intros [L F]. destruct bs as [|b bs]; [discriminate|]. inversion F; subst. simpl in L.
        assert (Ib : In bs (indices (repeat 2%nat n))) by (apply IH; split; auto).
        destruct b as [|[|b]]; [left|right; left|lia]; eauto.
  Qed.

  Lemma upds_bit (s : env) xs bs q : (s q < 2)%nat -> Forall (fun b => b < 2)%nat bs -> (upds s xs bs q < 2)%nat.
  Proof.
    revert s bs; induction xs as [|x r IH]; intros s [|b bs] Hs F; simpl; auto.
    inversion F; subst. apply IH; auto. unfold upd. destruct (eqb q x); auto.
  Qed.

  Definition apart (g h : act S) : Prop := forall q, In q (on g) -> ~ In q (on h).
  Lemma word_at_off g q : ~ In q (on g) -> word_at (S := S) g q = [].
  Proof. intros N. destruct (word_at g q) eqn:W; auto. exfalso. apply N, word_at_on. congruence. Qed.
  Lemma act_ins_on g q : In q (act_ins (S := S) g) -> In q (on g).
  Proof. unfold act_ins. rewrite filter_In; tauto. Qed.
  Lemma act_outs_on g q : In q (act_outs (S := S) g) -> In q (on g).
  Proof. unfold act_outs. rewrite filter_In; tauto. Qed.
  Lemma pre0_bit (g : act S) (a : env) q : (a q < 2)%nat -> (pre0 g a q < 2)%nat.
  Proof. unfold pre0. destruct (word_at g q) as [|[]]; auto. Qed.

  (** two operations one after the other *)
  Lemma evolve_two Q g h psi e :
    NoDup Q -> NoDup (on g) -> incl (on g) Q -> NoDup (on h) -> incl (on h) Q -> apart g h ->
    depends_on Q psi -> (forall q, In q Q -> e q < 2)%nat ->
    evolve Q g (evolve Q h psi) e =
    kdelta (forallb (fun q => after_ok (word_at g q) (e q)) Q) * (kdelta (forallb (fun q => after_ok (word_at h q) (e q)) Q) *
    sumf (fun bs => sumf (fun cs =>
      amp g (map e (act_outs g)) bs * (amp h (map e (act_outs h)) cs *
        psi (upds (pre0 h (upds (pre0 g e) (act_ins g) bs)) (act_ins h) cs)))
      (indices (repeat 2%nat (length (act_ins h))))) (indices (repeat 2%nat (length (act_ins g))))).
  Proof.
    intros NQ Ng Ig Nh Ih A Dp Be.
    rewrite evolve_closed; auto; [|apply evolve_depends; auto]. f_equal.
    rewrite esum_bits. rewrite <- sumf_mul_l. apply sumf_ext. intros bs Ib. apply in_bits in Ib as [Lb Fb].
    set (m := upds (pre0 g e) (act_ins g) bs).
    assert (Bm : forall q, In q Q -> (m q < 2)%nat).
    { intros q Iq. apply upds_bit; auto. apply pre0_bit; auto. }
    assert (Mh : forall q, In q (on h) -> m q = e q).
    { intros q Iq. unfold m. assert (N : ~ In q (on g)) by (intros X; apply (A q X); auto).
      rewrite upds_notin by (intros X; apply N, act_ins_on; auto). unfold pre0. rewrite word_at_off; auto. }
    rewrite evolve_closed; auto.
    assert (E1 : forallb (fun q => after_ok (word_at h q) (m q)) Q = forallb (fun q => after_ok (word_at h q) (e q)) Q).
    { apply forallb_iff. split; intros H q Iq; specialize (H q Iq); rewrite after_ok_iff in *; intros N E;
      specialize (H N E); rewrite Mh in * by (apply word_at_on; auto); auto. }
    assert (Em : map m (act_ins g) = bs) by (unfold m; apply upds_map; [apply NoDup_filter; auto|auto]).
    rewrite E1, Em.
    assert (E2 : map m (act_outs h) = map e (act_outs h)).
    { apply map_ext_in. intros q Iq. apply Mh, act_outs_on; auto. }
    rewrite E2, esum_bits.
    rewrite <- !sumf_mul_l. apply sumf_ext. intros cs Ic. apply in_bits in Ic as [Lc Fc].
    rewrite upds_map.
    2:{ apply NoDup_filter; auto. } 2:{ auto. }
    ring.
  Qed.

  Lemma evolve_commute Q g h psi e :
    NoDup Q -> NoDup (on g) -> incl (on g) Q -> NoDup (on h) -> incl (on h) Q -> apart g h ->
    depends_on Q psi -> (forall q, In q Q -> e q < 2)%nat ->
    evolve Q g (evolve Q h psi) e = evolve Q h (evolve Q g psi) e.
  Proof.
    intros NQ Ng Ig Nh Ih A Dp Be.
    assert (A' : apart h g) by (intros q X Y; apply (A q); auto).
    rewrite !evolve_two; auto. rewrite sumf_swap.
    set (a := kdelta (forallb (fun q => after_ok (word_at g q) (e q)) Q)).
    set (b := kdelta (forallb (fun q => after_ok (word_at h q) (e q)) Q)).
    match goal with |- a * (b * ?x) = b * (a * ?y) => assert (E : x = y); [|rewrite E; ring] end.
    apply sumf_ext. intros cs Ic. apply sumf_ext. intros bs Ib.
    apply in_bits in Ic as [Lc _]. apply in_bits in Ib as [Lb _].
    match goal with |- _ * (_ * psi ?x) = _ * (_ * psi ?y) => assert (E : psi x = psi y); [|rewrite E; ring] end.
    apply Dp. intros q Iq.
    assert (Og : forall s bs q, ~ In q (on g) -> upds s (act_ins g) bs q = s q).
    { intros s l x N. apply upds_notin. intros X; apply N, act_ins_on; auto. }
    assert (Oh : forall s bs q, ~ In q (on h) -> upds s (act_ins h) bs q = s q).
    { intros s l x N. apply upds_notin. intros X; apply N, act_ins_on; auto. }
    assert (Sim : forall xs bs (s t : env) x, s x = t x -> upds s xs bs x = upds t xs bs x).
    { clear. induction xs as [|y r IH]; intros [|b bs] s t x E; simpl; auto. apply IH. unfold upd. destruct (eqb x y); auto. }
    destruct (mem q (on g)) eqn:M; [apply mem_In in M|apply mem_false in M].
    - assert (N : ~ In q (on h)) by auto. rewrite Oh by auto. unfold pre0 at 1. rewrite word_at_off by auto.
      apply Sim. unfold pre0. destruct (word_at g q) as [|[]]; auto; rewrite Oh by auto;
        unfold pre0; rewrite word_at_off by auto; auto.
    - rewrite (Og (pre0 g _)) by auto. unfold pre0 at 3. rewrite (word_at_off g) by auto.
      apply Sim. unfold pre0. destruct (word_at h q) as [|[]]; auto; rewrite Og by auto;
        rewrite (word_at_off g) by auto; auto.
  Qed.

  Lemma evolve_ext Q g psi psi' e :
    NoDup Q -> (forall x, (forall q, In q Q -> x q < 2)%nat -> psi x = psi' x) -> evolve (S := S) Q g psi e = evolve Q g psi' e.
  Proof.
    intros NQ E. unfold evolve. apply esum_ext; [rewrite keys_qdom; auto|].
    intros m [Rm _]. f_equal. apply E. intros q Iq. apply bits01, (Rm q). unfold qdom. apply in_map_iff; eauto.
  Qed.
  Lemma run_ext Q gs psi psi' e :
    NoDup Q -> (forall x, (forall q, In q Q -> x q < 2)%nat -> psi x = psi' x) -> (forall q, In q Q -> e q < 2)%nat ->
    run (S := S) Q gs psi e = run Q gs psi' e.
  Proof.
    intros NQ. revert psi psi'; induction gs as [|g r IH]; intros psi psi' E B; simpl; auto.
    apply IH; auto. intros x _. apply evolve_ext; auto.
  Qed.

  (** ** The order of operations of one time step does not matter *)
  Definition timed : Type := (Z * act S)%type.
  Definition time_le (a b : timed) : Prop := (fst a <= fst b)%Z.
  Definition same_time_apart (a b : timed) : Prop := fst a = fst b -> apart (snd a) (snd b).
  Definition act_ok (Q : list name) (g : act S) : Prop := NoDup (on g) /\ incl (on g) Q.

  Lemma same_time_apart_sym a b : same_time_apart a b -> same_time_apart b a.
  Proof. intros H E q X Y. apply (H (eq_sym E) q); auto. Qed.

  Lemma FOP_perm {X} (R : X -> X -> Prop) l m :
    (forall a b, R a b -> R b a) -> Permutation l m -> ForallOrdPairs R l -> ForallOrdPairs R m.
  Proof.
    intros Sy P. induction P as [|x l m P IH|x y l|l m k P1 IH1 P2 IH2]; intros F; auto.
    - inversion F; subst. constructor; auto. eapply Permutation_Forall; eauto.
    - inversion F as [|? ? F1 F2]; subst. inversion F2 as [|? ? F3 F4]; subst. inversion F1; subst.
      constructor; auto. constructor; auto.
  Qed.

  Lemma run_front Q p x s psi e :
    NoDup Q -> act_ok Q (snd x) -> Forall (fun y => act_ok Q (snd y)) p -> Forall (fun y => act_ok Q (snd y)) s ->
    Forall (fun y => apart (snd x) (snd y)) p ->
    depends_on Q psi -> (forall q, In q Q -> e q < 2)%nat ->
    run Q (map snd (p ++ x :: s)) psi e = run Q (map (@snd Z _) (x :: p ++ s)) psi e.
  Proof.
    intros NQ [Nx Ix] Fp Fs Ap. revert psi. induction p as [|y p IH]; intros psi Dp Be; auto.
    inversion Fp as [|? ? [Ny Iy] Fp']; subst. inversion Ap as [|? ? A Ap']; subst.
    change (run Q (map snd ((y :: p) ++ x :: s)) psi e) with (run Q (map snd (p ++ x :: s)) (evolve Q (snd y) psi) e).
    rewrite IH; auto.
    - change (run Q (map snd (x :: p ++ s)) (evolve Q (snd y) psi) e)
        with (run Q (map snd (p ++ s)) (evolve Q (snd x) (evolve Q (snd y) psi)) e).
      change (run Q (map snd (x :: (y :: p) ++ s)) psi e)
        with (run Q (map snd (p ++ s)) (evolve Q (snd y) (evolve Q (snd x) psi)) e).
      apply run_ext; auto. intros a Ba. apply evolve_commute; auto.
    - apply evolve_depends; auto.
  Qed.

  Theorem run_time_order Q l1 l2 psi e :
    NoDup Q -> Permutation l1 l2 -> StronglySorted time_le l1 -> StronglySorted time_le l2 ->
    ForallOrdPairs same_time_apart l1 -> Forall (fun y => act_ok Q (snd y)) l1 ->
    depends_on Q psi -> (forall q, In q Q -> e q < 2)%nat ->
    run Q (map snd l1) psi e = run Q (map snd l2) psi e.
  Proof.
    intros NQ. revert l2 psi. induction l1 as [|x l1 IH]; intros l2 psi P S1 S2 F A Dp Be.
    - apply Permutation_nil in P; subst; auto.
    - assert (Ix : In x l2) by (apply (Permutation_in _ P); simpl; auto).
      apply in_split in Ix as (p & s & ->).
      assert (P' : Permutation l1 (p ++ s)) by (apply (Permutation_cons_app_inv _ _ P)).
      inversion S1 as [|? ? S1' L1]; subst. inversion F as [|? ? F1 F2]; subst. inversion A as [|? ? A1 A2]; subst.
      assert (Ap : Forall (fun y => act_ok Q (snd y)) (p ++ s)) by (eapply Permutation_Forall; eauto).
      apply Forall_app in Ap as [Ap As].
      rewrite run_front; auto.
      + change (run Q (map snd (x :: l1)) psi e) with (run Q (map snd l1) (evolve Q (snd x) psi) e).
        change (run Q (map snd (x :: p ++ s)) psi e) with (run Q (map snd (p ++ s)) (evolve Q (snd x) psi) e).
        apply IH; auto.
        * clear -S2. induction p as [|y p IH]; simpl in *; inversion S2; subst; auto.
          constructor; auto. apply Forall_app in H2 as [H2 H3]. inversion H3; subst. apply Forall_app; auto.
        * apply evolve_depends. apply A1.
      + apply Forall_forall. intros y Iy.
        assert (Iy1 : In y l1) by (apply (Permutation_in _ (Permutation_sym P')), in_app_iff; auto).
        rewrite Forall_forall in F1, L1. apply F1; auto.
        assert (Le1 := L1 y Iy1). assert (Le2 : time_le y x).
        { clear -S2 Iy. induction p as [|z p IH]; simpl in *; [tauto|]. inversion S2; subst. destruct Iy as [->|Iy]; auto.
          rewrite Forall_forall in H2. apply H2, in_app_iff. simpl; auto. }
        unfold time_le in *. lia.
  Qed.

  (** ** Every circuit is such a sum, whatever the register *)
  Lemma nt_inj z z' q q' : NT [NI z; q] = NT [NI z'; q'] -> z = z'.
  Proof. congruence. Qed.
  Lemma represents_exists Q1 Q2 gs :
    NoDup Q1 -> NoDup Q2 ->
    (forall g, In g gs -> act_ok Q1 g /\ act_ok Q2 g) ->
    (forall q, alternating (history (S := S) gs q)) ->
    exists d F D O, represents Q1 gs d F D O /\ represents Q2 gs d F D O.
  Proof.
    intros N1 N2 A Al.
    enough (H : exists d F D O, represents Q1 gs d F D O /\ represents Q2 gs d F D O /\
             (forall x, In x (keys d) -> exists z q, x = NT [NI z; q] /\ (z < 2 * Z.of_nat (length gs))%Z)).
    { destruct H as (d & F & D & O & H1 & H2 & _). exists d, F, D, O. auto. }
    induction gs as [|g gs IH].
    - exists [], (fun _ => 1), (fun q => q), (fun q => q).
      split; [apply represents_nil|split; [apply represents_nil|intros x []]].
    - destruct IH as (d & F & D & O & R1 & R2 & K).
      { intros h Ih. apply A; simpl; auto. }
      { intros q. specialize (Al q). apply (@alternating_app_r (word_at g q)). exact Al. }
      set (ni := fun q => NT [NI (2 * Z.of_nat (length gs)); q]).
      set (no := fun q => NT [NI (2 * Z.of_nat (length gs) + 1); q]).
      destruct (A g (or_introl eq_refl)) as [[G1 G2] [G3 G4]].
      assert (Inj : forall z l, NoDup l -> NoDup (map (fun q => NT [NI z; q]) l)).
      { intros z l Nl. apply FinFun.Injective_map_NoDup; auto. intros a b E. congruence. }
      assert (ND : NoDup (keys d ++ map no (filter (fun q => is_nil (history gs q)) (act_outs g)) ++ map ni (act_ins g))).
      { apply NoDup_app_iff. split; [apply R1|]. split.
        - apply NoDup_app_iff. split; [|split].
          + apply Inj. apply NoDup_filter, NoDup_filter; auto.
          + apply Inj. apply NoDup_filter; auto.
          + intros x Ix Iy. apply in_map_iff in Ix as (q & <- & _). apply in_map_iff in Iy as (q' & E & _).
            unfold ni, no in E. apply nt_inj in E. lia.
        - intros x Ix Iy. apply K in Ix as (z & q & -> & Hz). apply in_app_iff in Iy as [Iy|Iy];
            apply in_map_iff in Iy as (q' & E & _); unfold ni, no in E; apply nt_inj in E; lia. }
      eexists _, _, _, _. split; [|split].
      + apply (@represents_cons _ Q1 gs d F D O g ni no); auto. intros q _. apply (Al q).
      + apply (@represents_cons _ Q2 gs d F D O g ni no); auto. intros q _. apply (Al q).
      + intros x Ix. rewrite !keys_app, !keys_seg in Ix. cbn [length].
        rewrite !in_app_iff in Ix. destruct Ix as [Ix|[Ix|Ix]].
        * apply K in Ix as (z & q & -> & Hz). exists z, q. split; auto. lia.
        * apply in_map_iff in Ix as (q & <- & _). unfold no. eexists _, q. split; [reflexivity|lia].
        * apply in_map_iff in Ix as (q & <- & _). unfold ni. eexists _, q. split; [reflexivity|lia].
  Qed.

  Theorem amplitude_register Q1 Q2 gs o i :
    NoDup Q1 -> NoDup Q2 -> (forall g, In g gs -> act_ok Q1 g /\ act_ok Q2 g) ->
    (forall q, alternating (history (S := S) gs q)) ->
    wires_in Q1 gs = wires_in Q2 gs -> wires_out Q1 gs = wires_out Q2 gs ->
    bits (length (wires_out Q1 gs)) o -> bits (length (wires_in Q1 gs)) i ->
    amplitude Q1 gs o i = amplitude Q2 gs o i.
  Proof.
    intros N1 N2 A Al Ei Eo Bo Bi.
    destruct (represents_exists gs N1 N2 A Al) as (d & F & D & O & R1 & R2).
    rewrite (represents_amplitude R1) by auto. rewrite Ei, Eo in *. rewrite (represents_amplitude R2) by auto.
    reflexivity.
  Qed.

  (** ** Composition *)
  Theorem amplitude_compose Q gs hs o i :
    NoDup Q -> (forall g, In g (gs ++ hs) -> act_ok Q g) ->
    (forall q, alternating (history (S := S) (gs ++ hs) q)) ->
    wires_out Q gs = wires_in Q hs ->
    bits (length (wires_out Q hs)) o -> bits (length (wires_in Q gs)) i ->
    wires_in Q (gs ++ hs) = wires_in Q gs /\ wires_out Q (gs ++ hs) = wires_out Q hs /\
    amplitude Q (gs ++ hs) o i =
    sumf (fun m => amplitude Q hs o m * amplitude Q gs m i) (indices (repeat 2%nat (length (wires_out Q gs)))).
  Proof.
    intros NQ A Al Em Bo Bi.
    assert (Im : forall q, In q Q -> (ends_out (history gs q) = true <-> starts_in (history hs q) = true)).
    { intros q Iq. assert (E : In q (wires_out Q gs) <-> In q (wires_in Q hs)) by (rewrite Em; tauto).
      unfold wires_in, wires_out in E. rewrite !filter_In in E. tauto. }
    assert (Wi : wires_in Q (gs ++ hs) = wires_in Q gs).
    { unfold wires_in. apply filter_ext_in. intros q Iq. rewrite history_app. specialize (Im q Iq).
      destruct (history gs q) as [|a w] eqn:W; auto. simpl app. destruct (history hs q) as [|[] v]; auto. simpl in Im.
      assert (X : ends_out [] = true) by (apply Im; auto). discriminate. }
    assert (Wo : wires_out Q (gs ++ hs) = wires_out Q hs).
    { unfold wires_out. apply filter_ext_in. intros q Iq. rewrite history_app. specialize (Im q Iq).
      destruct (history hs q) as [|a w] eqn:W; [|apply ends_out_app; congruence].
      rewrite app_nil_r. destruct (ends_out (history gs q)); auto.
      assert (X : starts_in [] = true) by (apply Im; auto). discriminate. }
    split; auto. split; auto.
    unfold amplitude. rewrite Wi, Wo.
    set (psi := basis Q (place (wires_in Q gs) i)). set (e := place (wires_out Q hs) o).
    rewrite run_app.
    assert (Hh : exists d F D O, represents Q hs d F D O /\ represents Q hs d F D O).
    { apply represents_exists; auto.
      - intros g Ig. split; apply A, in_app_iff; auto.
      - intros q. specialize (Al q). rewrite history_app in Al. apply alternating_app_r in Al; auto. }
    destruct Hh as (d & F & D & O & R & _).
    assert (Dpsi : depends_on Q psi).
    { intros s s' E. unfold psi, basis. f_equal. apply forallb_iff.
      split; intros H q Iq; specialize (H q Iq); rewrite (E q) in *; auto. }
    assert (Drun : depends_on (S := S) Q (run Q gs psi)).
    { apply run_depends; auto. intros g Ig. apply A, in_app_iff; auto. }
    set (M := wires_out Q gs) in *.
    assert (NM : NoDup M) by (apply NoDup_filter; auto).
    rewrite (rep_run R); auto; [|intros q _; apply bits_place; auto].
    assert (Ed : dead_ok (history hs) Q e = true).
    { apply forallb_forall. intros q Iq. apply after_ok_iff. intros N E. apply place_notin.
      unfold wires_out. rewrite filter_In. intros [_ X]. congruence. }
    rewrite Ed. assert (M1 : forall x : S, kdelta true * x = x) by (intros; cbn [kdelta]; ring). rewrite M1.
    transitivity (sumf (fun m => esum d (fun s => kdelta (eqb (map s (map O (wires_out Q hs) ++ map D (wires_in Q hs))) (o ++ m)) * F s) env0
                                 * run Q gs psi (place M m)) (indices (repeat 2%nat (length M)))).
    2:{ apply sumf_ext. intros m Hm. apply in_bits in Hm. f_equal.
        rewrite <- (represents_amplitude R); auto. rewrite <- Em; auto. }
    transitivity (sumf (fun m => esum d (fun s => kdelta (eqb (map s (map O (wires_out Q hs) ++ map D (wires_in Q hs))) (o ++ m)) * F s
                                 * run Q gs psi (place M m)) env0) (indices (repeat 2%nat (length M)))).
    2:{ apply sumf_ext. intros m _. rewrite esum_mul_r; auto. intros s s' _; auto. }
    rewrite <- esum_sumf. apply esum_ext; [apply R|]. intros s [Rs _].
    set (x := map s (map D M)).
    assert (Bx : In x (indices (repeat 2%nat (length M)))).
    { apply in_bits. split; [unfold x; rewrite !map_length; auto|]. unfold x. rewrite map_map. apply Forall_forall.
      intros v Iv. apply in_map_iff in Iv as (q & <- & Iq).
      rewrite Em in Iq. unfold wires_in in Iq. apply filter_In in Iq as [Iq E].
      assert (K := rep_D R q Iq E). apply in_map_iff in K as ([y vs] & Ey & Iy). simpl in Ey; subst y.
      eapply (rep_bits R); eauto. }
    assert (Lx : length x = length M) by (unfold x; rewrite !map_length; auto).
    assert (Nidx : forall n, NoDup (indices (repeat 2%nat n))).
    { clear. induction n as [|n IH]; simpl; [repeat constructor; simpl; tauto|]. rewrite app_nil_r.
      apply NoDup_app_iff. split; [|split].
      - apply FinFun.Injective_map_NoDup; auto. intros a b E; congruence.
      - apply FinFun.Injective_map_NoDup; auto. intros a b E; congruence.
      - intros l I1 I2. apply in_map_iff in I1 as (a & <- & _). apply in_map_iff in I2 as (b & E & _). congruence. }
    transitivity (sumf (fun m => kdelta (eqb m x) * (kdelta (outs_ok (history hs) O Q s e) * (F s * run Q gs psi (place M m))))
                       (indices (repeat 2%nat (length M)))).
    - rewrite sumf_pin by auto.
      assert (Ex : mem x (indices (repeat 2%nat (length M))) = true) by (apply mem_In; auto).
      rewrite Ex, M1. f_equal. f_equal. apply Drun. intros q Iq. unfold look.
      destruct (starts_in (history hs q)) eqn:E.
      + assert (IM : In q M) by (unfold M, wires_out; apply filter_In; split; auto; apply Im; auto).
        destruct (history hs q) as [|[] w]; try discriminate. unfold place, x.
        symmetry. transitivity ((fun p => s (D p)) q); [|reflexivity].
        rewrite map_map. apply (@upds_self _ _ M env0 (fun p => s (D p))); auto.
      + assert (IM : ~ In q M).
        { unfold M, wires_out. rewrite filter_In. intros [_ X]. apply Im in X; auto. congruence. }
        rewrite (@place_notin M x q IM). destruct (history hs q) as [|[] w] eqn:W; auto; [|discriminate].
        unfold e. apply place_notin. unfold wires_out. rewrite filter_In, W. intros [_ X]; discriminate.
    - apply sumf_ext. intros m Hm. apply in_bits in Hm.
      rewrite map_app, eqb_app_nat by (rewrite !map_length; symmetry; apply Bo).
      rewrite <- Em. change (map s (map D M)) with x. rewrite eqb_sym.
      assert (Eo : outs_ok (history hs) O Q s e = eqb (map s (map O (wires_out Q hs))) o).
      { rewrite (@eqb_place O s _ o) by (try apply NoDup_filter; auto; apply Bo). unfold outs_ok.
        apply forallb_iff. split; intros H q Iq.
        - unfold wires_out in Iq. apply filter_In in Iq as [Iq E]. specialize (H q Iq). rewrite E in H. auto.
        - apply orb_impl. intros E. apply H. apply filter_In; auto. }
      rewrite Eo, kdelta_andb. ring.
  Qed.

  (** ** Adjoint *)
  Lemma flip_starts w : starts_in (flip_word w) = ends_out w.
  Proof.
    unfold flip_word. destruct w as [|a w] using rev_ind; auto. rewrite rev_app_distr. simpl.
    unfold ends_out. rewrite last_last. destruct a; auto.
  Qed.
  Lemma flip_flip w : flip_word (flip_word w) = w.
  Proof.
    unfold flip_word. rewrite <- map_rev, rev_involutive, map_map. transitivity (map (fun x => x) w); [|apply map_id].
    apply map_ext. intros []; auto.
  Qed.
  Lemma flip_ends w : ends_out (flip_word w) = starts_in w.
  Proof. rewrite <- flip_starts, flip_flip; auto. Qed.
  Lemma flip_app w v : flip_word (w ++ v) = flip_word v ++ flip_word w.
  Proof. unfold flip_word. rewrite rev_app_distr, map_app; auto. Qed.

  Lemma word_at_adj g q : word_at (act_adj (S := S) g) q = flip_word (word_at g q).
  Proof.
    unfold word_at, act_adj; simpl. generalize (words g) as ws. induction (on g) as [|x r IH]; intros [|w ws]; simpl; auto.
    destruct (eqb q x); auto.
  Qed.
  Lemma act_ins_adj g : act_ins (act_adj (S := S) g) = act_outs g.
  Proof. unfold act_ins, act_outs. simpl. apply filter_ext. intros q. rewrite word_at_adj. apply flip_starts. Qed.
  Lemma act_outs_adj g : act_outs (act_adj (S := S) g) = act_ins g.
  Proof. unfold act_ins, act_outs. simpl. apply filter_ext. intros q. rewrite word_at_adj. apply flip_ends. Qed.

  Lemma kconj_delta b : kconj (kdelta b : S) = kdelta b.
  Proof. destruct b; simpl; [apply kconj_1|apply kconj_0]. Qed.

  Lemma matrix_adj Q g a b : matrix Q (act_adj g) a b = kconj (matrix (S := S) Q g b a).
  Proof.
    unfold matrix. rewrite kconj_mul, kconj_delta. rewrite act_ins_adj, act_outs_adj. simpl. f_equal. f_equal.
    apply forallb_iff. split; intros H q Iq; specialize (H q Iq); revert H; rewrite word_at_adj; unfold wire_ok.
    - destruct (word_at g q) as [|c w] eqn:W; [rewrite Nat.eqb_sym; auto|]. rewrite flip_starts, flip_ends.
      assert (N : flip_word (c :: w) <> []).
      { intros X. apply (f_equal flip_word) in X. rewrite flip_flip in X. discriminate. }
      destruct (flip_word (c :: w)); [congruence|]. rewrite andb_comm. auto.
    - destruct (word_at g q) as [|c w] eqn:W; [rewrite Nat.eqb_sym; auto|]. rewrite flip_starts, flip_ends.
      assert (N : flip_word (c :: w) <> []).
      { intros X. apply (f_equal flip_word) in X. rewrite flip_flip in X. discriminate. }
      destruct (flip_word (c :: w)); [congruence|]. rewrite andb_comm. auto.
  Qed.

  Lemma history_adj gs q : history (rev (map (@act_adj S) gs)) q = flip_word (history gs q).
  Proof.
    induction gs as [|g gs IH]; auto. simpl. rewrite history_app, IH.
    change (history (g :: gs) q) with (word_at g q ++ history gs q). rewrite flip_app. f_equal.
    unfold history. simpl. rewrite app_nil_r. apply word_at_adj.
  Qed.
  Lemma wires_in_adj Q gs : wires_in Q (rev (map (@act_adj S) gs)) = wires_out Q gs.
  Proof. unfold wires_in, wires_out. apply filter_ext. intros q. rewrite history_adj. apply flip_starts. Qed.
  Lemma wires_out_adj Q gs : wires_out Q (rev (map (@act_adj S) gs)) = wires_in Q gs.
  Proof. unfold wires_in, wires_out. apply filter_ext. intros q. rewrite history_adj. apply flip_ends. Qed.

  Lemma kconj_kconj_S (x : S) : kconj (kconj x) = x.
  Proof. apply kconj_conj. Qed.

  Lemma run_adj Q gs (chi psi : env -> S) :
    esum (qdom Q) (fun e => kconj (chi e) * run Q gs psi e) env0 =
    esum (qdom Q) (fun e => kconj (run Q (rev (map (@act_adj S) gs)) chi e) * psi e) env0.
  Proof.
    revert psi; induction gs as [|g gs IH]; intros psi; auto.
    change (run Q (g :: gs) psi) with (run Q gs (evolve Q g psi)). rewrite IH. simpl rev. rewrite run_app.
    set (X := run Q (rev (map (@act_adj S) gs)) chi).
    change (run Q [act_adj g] X) with (evolve Q (act_adj g) X). unfold evolve.
    transitivity (esum (qdom Q) (fun e => esum (qdom Q) (fun m => kconj (X e) * (matrix Q g e m * psi m)) env0) env0).
    { apply esum_ext_all. intros e. rewrite esum_scale. reflexivity. }
    rewrite esum_swap_env. apply esum_ext_all. intros m. rewrite esum_conj.
    rewrite <- (@esum_mul_r _ _ _ (qdom Q) _ (fun _ => psi m)) by (intros s s' _; auto).
    apply esum_ext_all. intros e. rewrite kconj_mul, matrix_adj, kconj_kconj_S. ring.
  Qed.

  Lemma basis_pair Q (x : env) (f : env -> S) :
    NoDup Q -> (forall q, In q Q -> x q < 2)%nat -> depends_on Q f ->
    esum (qdom Q) (fun e => basis (S := S) Q x e * f e) env0 = f x.
  Proof.
    intros NQ B D.
    transitivity (esum (qdom Q ++ []) (fun e => kdelta (eqb (map e (keys (qdom Q))) (map x Q)) * f e) env0).
    { rewrite app_nil_r. apply esum_ext_all. intros e. unfold basis. rewrite keys_qdom, eqb_map. reflexivity. }
    rewrite esum_pin_list.
    - change (qdom Q) with (seg (fun q => q) Q) at 1. rewrite all_in_seg by auto. rewrite keys_qdom. simpl.
      assert (E : f (upds env0 Q (map x Q)) = f x).
      { apply D. intros q Iq. apply upds_self; auto. }
      rewrite E. ring.
    - rewrite app_nil_r, keys_qdom; auto.
    - intros a ws Ia. apply (@In_seg (fun q => q)) in Ia; subst. apply nodup01.
  Qed.

  Theorem amplitude_adj Q gs o i :
    NoDup Q -> (forall g, In g gs -> incl (on g) Q) ->
    bits (length (wires_out Q gs)) o -> bits (length (wires_in Q gs)) i ->
    amplitude Q (rev (map (@act_adj S) gs)) i o = kconj (amplitude Q gs o i).
  Proof.
    intros NQ A Bo Bi. unfold amplitude. rewrite wires_in_adj, wires_out_adj.
    set (x := place (wires_out Q gs) o). set (y := place (wires_in Q gs) i).
    assert (Db : forall z, depends_on (S := S) Q (basis Q z)).
    { intros z s s' E. unfold basis. f_equal. apply forallb_iff.
      split; intros H q Iq; specialize (H q Iq); rewrite (E q) in *; auto. }
    assert (Bx : forall q, In q Q -> (x q < 2)%nat) by (intros; apply bits_place; auto).
    assert (By : forall q, In q Q -> (y q < 2)%nat) by (intros; apply bits_place; auto).
    rewrite <- (@basis_pair Q x (run Q gs (basis Q y))); auto; [|apply run_depends; auto].
    rewrite <- (@basis_pair Q y (run Q (rev (map (@act_adj S) gs)) (basis Q x))); auto.
    2:{ apply run_depends; auto. intros g Ig. apply in_rev in Ig. apply in_map_iff in Ig as (h & <- & Ih). simpl; auto. }
    assert (Cb : forall z e, kconj (basis (S := S) Q z e) = basis Q z e) by (intros; unfold basis; apply kconj_delta).
    transitivity (kconj (esum (qdom Q) (fun e => kconj (basis Q x e) * run Q gs (basis Q y) e) env0)).
    - rewrite run_adj, esum_conj. apply esum_ext_all. intros e. rewrite kconj_mul, kconj_kconj_S, Cb. ring.
    - f_equal. apply esum_ext_all. intros e. rewrite Cb; auto.
  Qed.
End Order.
