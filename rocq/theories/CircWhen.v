(** Circuits under a control, and circuits whose wires are renamed. *)
From Coq Require Import Sorting.Permutation Sorting.Sorted.
From Verif Require Import Base Scalar NetSpec Sums NetAlg ModelArray ModelTN ModelVal ModelContract CircSpec CircSum CircOrder
  ModelCircuit CircSem CircShape CircWire.
Set Implicit Arguments.

Lemma filter_all {X} (p : X -> bool) l : (forall x, In x l -> p x = true) -> filter p l = l.
Proof. induction l as [|x l IH]; simpl; intros H; auto. rewrite (H x) by auto. f_equal; auto. Qed.
Lemma bits_cons' n b l : (b < 2)%nat -> bits n l -> bits (Datatypes.S n) (b :: l).
Proof. intros B [L F]. split; simpl; auto. Qed.

Section When.
  Variable S : scalar.
  Notation env := (env (A := name)).
  Local Open Scope K_scope.
  Add Ring Kring_when : (kring S).

  (** an operation whose wires all go in and come out again *)
  Definition through (g : act S) : Prop := forall q, In q (on g) -> word_at g q = [LI; LO].
  Definition ctl (c : name) (cond : bool) (g : act S) : act S :=
    Act (c :: on g) ([LI; LO] :: words g) (when_amp cond (amp g)).

  Lemma through_ins g : through g -> act_ins g = on g.
  Proof.
    intros H. unfold act_ins. apply filter_all. intros q I. rewrite (H q I). auto.
  Qed.
  Lemma through_outs g : through g -> act_outs g = on g.
  Proof.
    intros H. unfold act_outs. apply filter_all. intros q I. rewrite (H q I). auto.
  Qed.
  Lemma ctl_word_eq c cond g : word_at (ctl c cond g) c = [LI; LO].
  Proof. unfold word_at, ctl. simpl. destruct (eqb_spec c c); congruence. Qed.
  Lemma ctl_word_neq c cond g q : q <> c -> word_at (ctl c cond g) q = word_at g q.
  Proof. intros N. unfold word_at, ctl. simpl. destruct (eqb_spec q c); [congruence|auto]. Qed.
  Lemma ctl_through c cond g : ~ In c (on g) -> through g -> through (ctl c cond g).
  Proof.
    intros N H q [<-|I]; [apply ctl_word_eq|]. rewrite ctl_word_neq; auto. intros ->; auto.
  Qed.

  Lemma evolve_through Q (g : act S) psi a :
    NoDup Q -> NoDup (on g) -> incl (on g) Q -> depends_on Q psi -> (forall q, In q Q -> a q < 2)%nat -> through g ->
    evolve Q g psi a = esum (qdom (on g)) (fun m => amp g (map a (on g)) (map m (on g)) * psi m) a.
  Proof.
    intros NQ N I D B T. rewrite evolve_closed; auto. rewrite through_ins, through_outs by auto.
    assert (E : forallb (fun q => after_ok (word_at g q) (a q)) Q = true).
    { apply forallb_forall. intros q Iq. destruct (mem q (on g)) eqn:M.
      - apply mem_In in M. rewrite (T q M). auto.
      - apply mem_false in M. rewrite word_at_off; auto. }
    rewrite E. simpl. rewrite kmul_1_l.
    apply (@esum_exten S name _ (qdom (on g)) (fun m => amp g (map a (on g)) (map m (on g)) * psi m)).
    - intros s s' Es. f_equal; [f_equal; apply map_ext; auto|]. apply D; auto.
    - intros q. unfold pre0. destruct (word_at g q) as [|[] w] eqn:W; auto.
      assert (In q (on g)) by (apply word_at_on; congruence). rewrite T in W by auto. discriminate.
  Qed.

  Lemma evolve_ctl Q c cond (g : act S) phi a b :
    NoDup (c :: Q) -> NoDup (on g) -> incl (on g) Q -> depends_on Q phi -> (forall q, In q (c :: Q) -> a q < 2)%nat -> through g ->
    evolve (c :: Q) (ctl c cond g) (fun e => kdelta (Nat.eqb (e c) b) * phi e) a
    = kdelta (Nat.eqb (a c) b) * (if Nat.eqb b (bit cond) then evolve Q g phi a else phi a).
  Proof.
    intros NQ N I D B T. inversion NQ as [|? ? Nc NQ']; subst.
    assert (Nco : ~ In c (on g)) by (intros X; apply Nc, I; auto).
    rewrite evolve_through; auto.
    - cbn [on ctl qdom map esum].
      transitivity (sumf (fun v => kdelta (eqb v (a c)) *
         (kdelta (Nat.eqb (a c) b) * (if Nat.eqb b (bit cond) then evolve Q g phi a else phi a))) [0; 1]%nat).
      2:{ rewrite (sumf_pin (fun _ => kdelta (Nat.eqb (a c) b) * (if Nat.eqb b (bit cond) then evolve Q g phi a else phi a)) (a c)).
          - assert (Bc : (a c < 2)%nat) by (apply B; simpl; auto).
            assert (M : mem (a c) [0; 1]%nat = true) by (destruct (a c) as [|[|]]; auto; lia). rewrite M. simpl. ring.
          - apply nodup01. }
      apply sumf_ext. intros v Iv. unfold ctl at 1. cbn [amp].
      transitivity (esum (qdom (on g)) (fun m : env =>
        (kdelta (Nat.eqb (a c) v) * kdelta (Nat.eqb v b)) *
        ((if Nat.eqb (a c) (bit cond) then amp g (map a (on g)) (map m (on g)) else kdelta (eqb (map a (on g)) (map m (on g)))) * phi m))
        (upd a c v)).
      { apply esum_ext; [rewrite keys_qdom; auto|]. intros m [Rm1 Rm2]. rewrite keys_qdom in Rm2.
        assert (Em : m c = v) by (rewrite Rm2 by auto; apply upd_eq). unfold when_amp. cbn [map]. rewrite !Em. ring. }
      rewrite (@esum_mul_l S name _ (qdom (on g)) _ (fun _ => kdelta (Nat.eqb (a c) v) * kdelta (Nat.eqb v b))) by (intros ? ? _; auto).
      destruct (Nat.eqb_spec (a c) v) as [E|Ne].
      + subst v. destruct (eqb_spec (a c) (a c)) as [_|]; [|congruence]. cbn [kdelta]. rewrite !kmul_1_l.
        destruct (Nat.eqb_spec (a c) b) as [E|Ne]; [|cbn [kdelta]; ring]. subst b. f_equal.
        transitivity (esum (qdom (on g)) (fun m : env => (if Nat.eqb (a c) (bit cond) then amp g (map a (on g)) (map m (on g))
            else kdelta (eqb (map a (on g)) (map m (on g)))) * phi m) a).
        { apply (@esum_exten S name _ (qdom (on g)) (fun m : env => (if Nat.eqb (a c) (bit cond) then amp g (map a (on g)) (map m (on g))
            else kdelta (eqb (map a (on g)) (map m (on g)))) * phi m)).
          - intros s s' Es. rewrite (map_ext _ _ Es). f_equal. apply D; auto.
          - intros q. unfold upd. destruct (eqb_spec q c); subst; auto. }
        destruct (Nat.eqb (a c) (bit cond)).
        * symmetry. apply evolve_through; auto. intros q Iq. apply B; simpl; auto.
        * transitivity (esum (qdom (on g) ++ []) (fun m : env => kdelta (eqb (map m (keys (qdom (on g)))) (map a (on g))) * phi m) a).
          { rewrite app_nil_r. apply esum_ext_all. intros m. rewrite keys_qdom. f_equal. f_equal.
            rewrite !eqb_map. apply forallb_iff. split; intros H q Iq; rewrite Nat.eqb_sym; auto. }
          rewrite esum_pin_list.
          -- change (qdom (on g)) with (seg (fun q => q) (on g)) at 1. rewrite all_in_seg. 2:{ intros q Iq. apply B; simpl; auto. }
             rewrite keys_qdom. simpl. rewrite kmul_1_l. apply D. intros q Iq.
             destruct (mem q (on g)) eqn:Mq; [apply mem_In in Mq; apply upds_self; auto|apply mem_false in Mq; apply upds_notin; auto].
          -- rewrite app_nil_r, keys_qdom; auto.
          -- intros x ws Ix. apply (@In_seg (fun q => q)) in Ix; subst. apply nodup01.
      + destruct (eqb_spec v (a c)); [congruence|]. cbn [kdelta]. ring.
    - simpl. constructor; auto.
    - intros q [<-|Iq]; simpl; auto.
    - intros s s' Es. rewrite (Es c) by (simpl; auto). f_equal. apply D. intros q Iq. apply Es; simpl; auto.
    - apply ctl_through; auto.
  Qed.

  Lemma run_ctl Q c cond : NoDup (c :: Q) -> forall (gs : list (act S)) phi a b,
    Forall (fun g => NoDup (on g) /\ incl (on g) Q /\ through g) gs ->
    depends_on Q phi -> (forall q, In q (c :: Q) -> a q < 2)%nat ->
    run (c :: Q) (map (ctl c cond) gs) (fun e => kdelta (Nat.eqb (e c) b) * phi e) a
    = kdelta (Nat.eqb (a c) b) * (if Nat.eqb b (bit cond) then run Q gs phi a else phi a).
  Proof.
    intros NQ. induction gs as [|g gs IH]; intros phi a b F D B.
    - simpl. destruct (Nat.eqb b _); auto.
    - inversion F as [|? ? (N & I & T) F']; subst. cbn [map run fold_left].
      change (fold_left (fun psi h => evolve Q h psi) gs (evolve Q g phi)) with (run Q gs (evolve Q g phi)).
      transitivity (run (c :: Q) (map (ctl c cond) gs)
        (fun e => kdelta (Nat.eqb (e c) b) * (if Nat.eqb b (bit cond) then evolve Q g phi e else phi e)) a).
      { apply run_ext; auto. intros e Be. apply evolve_ctl; auto. }
      rewrite IH; auto.
      + destruct (Nat.eqb b (bit cond)); auto.
      + destruct (Nat.eqb b (bit cond)); auto. apply evolve_depends; auto.
  Qed.

  Lemma history_through (gs : list (act S)) q : Forall through gs ->
    history gs q = [] \/ (starts_in (history gs q) = true /\ ends_out (history gs q) = true /\ alternating (history gs q)).
  Proof.
    induction 1 as [|g gs T F IH]; auto. rewrite history_cons. destruct (mem q (on g)) eqn:M.
    - apply mem_In in M. rewrite (T q M). right. destruct IH as [->|(H1 & H2 & H3)]; [simpl; repeat split; auto; congruence|].
      destruct (history gs q) as [|x h] eqn:E; [discriminate|]. rewrite ends_out_app by congruence.
      destruct x; [|discriminate]. repeat split; try congruence; auto.
    - apply mem_false in M. rewrite (word_at_off _ _ M). exact IH.
  Qed.
  Lemma wires_all Q (gs : list (act S)) : Forall through gs -> (forall q, In q Q -> exists g, In g gs /\ In q (on g)) ->
    wires_in Q gs = Q /\ wires_out Q gs = Q.
  Proof.
    intros T H.
    assert (K : forall q, In q Q -> starts_in (history gs q) = true /\ ends_out (history gs q) = true).
    { intros q Iq. destruct (H q Iq) as (g & Ig & Iq'). destruct (history_through q T) as [E|E]; [|tauto].
      exfalso. apply in_split in Ig as (l1 & l2 & ->). rewrite history_app, history_cons in E.
      rewrite Forall_forall in T. rewrite (T g) in E; [|apply in_app_iff; simpl; auto|auto].
      apply app_eq_nil in E as [_ E]. discriminate. }
    split; apply filter_all; intros q Iq; apply K; auto.
  Qed.

  Lemma basis_depends Q (x : env) : depends_on Q (basis (S := S) Q x).
  Proof.
    intros s s' Es. unfold basis. f_equal. apply forallb_iff. split; intros H q Iq; specialize (H q Iq); rewrite (Es q) in *; auto.
  Qed.
  Theorem amplitude_ctl Q c cond (gs : list (act S)) b o b' i :
    NoDup (c :: Q) -> gs <> [] ->
    Forall (fun g => NoDup (on g) /\ incl (on g) Q /\ through g) gs -> (forall q, In q Q -> exists g, In g gs /\ In q (on g)) ->
    (b < 2)%nat -> (b' < 2)%nat -> bits (length Q) o -> bits (length Q) i ->
    amplitude (c :: Q) (map (ctl c cond) gs) (b :: o) (b' :: i) = when_amp cond (amplitude Q gs) (b :: o) (b' :: i).
  Proof.
    intros NQ Ne F H Bb Bb' Bo Bi. inversion NQ as [|? ? Nc NQ']; subst.
    assert (T : Forall through gs) by (eapply Forall_impl; [|exact F]; intros g (?&?&?); auto).
    assert (T' : Forall through (map (ctl c cond) gs)).
    { rewrite Forall_map. eapply Forall_impl; [|exact F]. intros g (N & I & Tg). apply ctl_through; auto. }
    destruct (@wires_all Q gs T H) as [Wi Wo].
    destruct (@wires_all (c :: Q) (map (ctl c cond) gs) T') as [Wi' Wo'].
    { intros q [<-|Iq].
      - destruct gs as [|g gs]; [congruence|]. exists (ctl c cond g). simpl; auto.
      - destruct (H q Iq) as (g & Ig & Iq'). exists (ctl c cond g). split; [apply in_map; auto|simpl; auto]. }
    assert (Pc : forall x bs, place (c :: Q) (x :: bs) c = x).
    { intros x bs. unfold place. simpl. rewrite upds_notin by auto. apply upd_eq. }
    assert (Pq : forall x bs q, In q Q -> length bs = length Q -> place (c :: Q) (x :: bs) q = place Q bs q).
    { intros x bs q Iq L. unfold place. simpl.
      assert (E : map (upds (upd env0 c x) Q bs) Q = map (upds env0 Q bs) Q) by (rewrite !upds_map; auto).
      apply ext_in_map with (a := q) in E; auto. }
    unfold amplitude at 1. rewrite Wi', Wo'.
    set (e := place (c :: Q) (b :: o)).
    transitivity (run (c :: Q) (map (ctl c cond) gs) (fun y => kdelta (Nat.eqb (y c) b') * basis Q (place Q i) y) e).
    { apply run_ext; auto.
      - intros y _. unfold basis. cbn [forallb]. rewrite kdelta_andb, Pc. f_equal. f_equal. apply forallb_iff.
        split; intros Hy q Iq; specialize (Hy q Iq); rewrite Pq in *; auto; apply Bi.
      - intros q Iq. apply bits_place. simpl. apply bits_cons'; auto. }
    rewrite run_ctl; auto.
    - unfold when_amp, e. rewrite Pc. unfold amplitude. rewrite Wi, Wo.
      destruct (Nat.eqb_spec b b') as [->|]; [|cbn [kdelta]; ring]. f_equal.
      destruct (Nat.eqb b' (bit cond)).
      + apply run_depends with (Q := Q).
        * intros g Ig. rewrite Forall_forall in F. apply (F g Ig).
        * apply basis_depends.
        * intros q Iq. apply Pq; auto. apply Bo.
      + unfold basis. f_equal.
        transitivity (eqb (map (place Q o) Q) (map (place Q i) Q)).
        * rewrite eqb_map. apply forallb_iff. split; intros Hy q Iq; specialize (Hy q Iq); rewrite Pq in *; auto; apply Bo.
        * rewrite !place_map; auto; [apply Bi|apply Bo].
    - apply basis_depends.
    - intros q Iq. apply bits_place. simpl. apply bits_cons'; auto.
  Qed.

  (** ** renamed wires *)
  Section Rename.
    Variable r : name -> name.
    Definition ract (g : act S) : act S := Act (map r (on g)) (words g) (amp g).
    Variable Q : list name.
    Hypothesis NQ : NoDup Q.
    Hypothesis inj : forall x y, In x Q -> In y Q -> r x = r y -> x = y.

    Lemma map_inj_NoDup : forall l, incl l Q -> NoDup l -> NoDup (map r l).
    Proof.
      induction l as [|x l IH]; intros I N; simpl; [constructor|]. inversion N; subst. constructor.
      - intros X. apply in_map_iff in X as (y & E & Iy). apply inj in E; [subst; auto|apply I; simpl; auto|apply I; simpl; auto].
      - apply IH; auto. intros y Iy; apply I; simpl; auto.
    Qed.
    Lemma word_ract (g : act S) q : incl (on g) Q -> In q Q -> word_at (ract g) (r q) = word_at g q.
    Proof.
      intros I Iq. unfold word_at, ract. simpl. revert I. generalize (words g) as ws. induction (on g) as [|x l IH]; intros ws I; simpl; auto.
      destruct ws as [|w ws]; simpl; auto.
      assert (Ix : In x Q) by (apply I; simpl; auto).
      destruct (eqb_spec (r q) (r x)) as [E|N], (eqb_spec q x) as [E'|N']; auto.
      - apply inj in E; congruence.
      - congruence.
      - apply IH. intros y Iy; apply I; simpl; auto.
    Qed.
    Lemma filter_map_r (p p' : name -> bool) l : incl l Q -> (forall q, In q Q -> p' (r q) = p q) ->
      filter p' (map r l) = map r (filter p l).
    Proof.
      intros I H. induction l as [|x l IH]; simpl; auto. rewrite H by (apply I; simpl; auto).
      rewrite IH by (intros y Iy; apply I; simpl; auto). destruct (p x); auto.
    Qed.
    Lemma outs_ract (g : act S) : incl (on g) Q -> act_outs (ract g) = map r (act_outs g).
    Proof. intros I. unfold act_outs. simpl. apply filter_map_r; auto. intros q Iq. rewrite word_ract; auto. Qed.
    Lemma ins_ract (g : act S) : incl (on g) Q -> act_ins (ract g) = map r (act_ins g).
    Proof. intros I. unfold act_ins. simpl. apply filter_map_r; auto. intros q Iq. rewrite word_ract; auto. Qed.
    Lemma history_ract (gs : list (act S)) q : (forall g, In g gs -> incl (on g) Q) -> In q Q ->
      history (map ract gs) (r q) = history gs q.
    Proof.
      intros I Iq. induction gs as [|g gs IH]; auto. cbn [map]. rewrite !history_cons.
      rewrite word_ract, IH; auto; [intros h Ih; apply I; simpl; auto|apply I; simpl; auto].
    Qed.
    Definition rel (s' s : env) : Prop := forall q, In q Q -> s' (r q) = s q.
    Lemma map_rel (s' s : env) l : rel s' s -> incl l Q -> map s' (map r l) = map s l.
    Proof. intros R I. rewrite map_map. apply map_ext_in. intros q Iq. apply R; auto. Qed.
    Lemma upds_rel s' s bs : length bs = length Q -> rel (upds s' (map r Q) bs) (upds s Q bs).
    Proof.
      intros L q Iq.
      assert (E : map (upds s' (map r Q) bs) (map r Q) = map (upds s Q bs) Q).
      { rewrite !upds_map; auto; [apply map_inj_NoDup; auto; apply incl_refl|rewrite map_length; auto]. }
      rewrite map_map in E. apply ext_in_map with (a := q) in E; auto.
    Qed.
    Lemma evolve_ract (g : act S) psi psi' a a' : incl (on g) Q ->
      (forall s s', rel s' s -> psi' s' = psi s) -> rel a' a ->
      evolve (map r Q) (ract g) psi' a' = evolve Q g psi a.
    Proof.
      intros I H R. unfold evolve, qdom. rewrite map_map.
      apply (@esum_sim S name r (fun q => q) [0; 1]%nat Q). intros bs L _. rewrite map_id.
      assert (Rb := @upds_rel env0 env0 bs L). f_equal; [|apply H; auto].
      unfold matrix. rewrite outs_ract, ins_ract by auto. cbn [amp ract].
      rewrite (@map_rel _ (upds env0 Q bs) (act_ins g)); auto.
      2:{ intros q Iq. apply I, (act_ins_on g q Iq). }
      rewrite (@map_rel _ a (act_outs g)); auto.
      2:{ intros q Iq. apply I, (act_outs_on g q Iq). }
      f_equal. f_equal.
      assert (G : forall l, incl l Q -> forallb (fun q => wire_ok (word_at (ract g) q) (upds env0 (map r Q) bs q) (a' q)) (map r l) =
                  forallb (fun q => wire_ok (word_at g q) (upds env0 Q bs q) (a q)) l); [|apply G; apply incl_refl].
      induction l as [|q l IH]; intros Il; simpl; auto. rewrite IH by (intros y Iy; apply Il; simpl; auto).
      rewrite word_ract, (R q), (Rb q) by (auto; apply Il; simpl; auto). auto.
    Qed.
    Lemma run_ract : forall (gs : list (act S)) psi psi' a a', (forall g, In g gs -> incl (on g) Q) ->
      (forall s s', rel s' s -> psi' s' = psi s) -> rel a' a ->
      run (map r Q) (map ract gs) psi' a' = run Q gs psi a.
    Proof.
      induction gs as [|g gs IH]; intros psi psi' a a' I H R; simpl; auto. apply IH; auto.
      - intros h Ih; apply I; simpl; auto.
      - intros s s' Rs. apply evolve_ract; auto. apply I; simpl; auto.
    Qed.
    Lemma place_rel qs bs : incl qs Q -> NoDup qs -> length bs = length qs -> rel (place (map r qs) bs) (place qs bs).
    Proof.
      intros I N L q Iq. unfold place. destruct (mem q qs) eqn:M.
      - apply mem_In in M.
        assert (E : map (upds env0 (map r qs) bs) (map r qs) = map (upds env0 qs bs) qs).
        { rewrite !upds_map; auto; [apply map_inj_NoDup; auto|rewrite map_length; auto]. }
        rewrite map_map in E. apply ext_in_map with (a := q) in E; auto.
      - apply mem_false in M. rewrite !upds_notin; auto. intros X. apply in_map_iff in X as (y & E & Iy).
        apply inj in E; auto; subst; auto.
    Qed.
    Theorem amplitude_ract (gs : list (act S)) o i : (forall g, In g gs -> incl (on g) Q) ->
      bits (length (wires_out Q gs)) o -> bits (length (wires_in Q gs)) i ->
      amplitude (map r Q) (map ract gs) o i = amplitude Q gs o i.
    Proof.
      intros I Bo Bi. unfold amplitude.
      assert (Ei : wires_in (map r Q) (map ract gs) = map r (wires_in Q gs)).
      { unfold wires_in. apply filter_map_r; [apply incl_refl|]. intros q Iq. rewrite history_ract; auto. }
      assert (Eo : wires_out (map r Q) (map ract gs) = map r (wires_out Q gs)).
      { unfold wires_out. apply filter_map_r; [apply incl_refl|]. intros q Iq. rewrite history_ract; auto. }
      rewrite Ei, Eo.
      assert (Ii : incl (wires_in Q gs) Q) by (intros q Iq; apply filter_In in Iq; tauto).
      assert (Io : incl (wires_out Q gs) Q) by (intros q Iq; apply filter_In in Iq; tauto).
      apply run_ract; auto.
      - intros s s' Rs. unfold basis. f_equal.
        assert (Rp : rel (place (map r (wires_in Q gs)) i) (place (wires_in Q gs) i)).
        { apply place_rel; auto; [apply NoDup_filter; auto|apply Bi]. }
        assert (G : forall l, incl l Q -> forallb (fun q => Nat.eqb (s' q) (place (map r (wires_in Q gs)) i q)) (map r l) =
                    forallb (fun q => Nat.eqb (s q) (place (wires_in Q gs) i q)) l); [|apply G; apply incl_refl].
        induction l as [|q l IH]; intros Il; simpl; auto. rewrite IH by (intros y Iy; apply Il; simpl; auto).
        rewrite (Rs q), (Rp q) by (apply Il; simpl; auto). auto.
      - apply place_rel; auto; [apply NoDup_filter; auto|apply Bo].
    Qed.
  End Rename.
End When.
