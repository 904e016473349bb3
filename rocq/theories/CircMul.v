(** Parallel composition. *)
From Coq Require Import Sorting.Permutation Sorting.Sorted.
From Verif Require Import Base Scalar NetSpec Sums NetAlg ModelArray ModelTN TNInv TNOps TNSpec TNValue TNExact TNEdit
  TNEdit2 ModelVal ModelOps OpsSpec OpsProofs OpsValue ModelContract ContractExec NameOrder CircSpec CircSum CircOrder
  ModelCircuit CircSem CircShape CircWire CircStep CircNet CircCtrl CircWhen CircOp CircMain CircBuild CircAdj CircUse.
Set Implicit Arguments.

Lemma app_inj_len {X} (a b c d : list X) : a ++ b = c ++ d -> length a = length c -> a = c /\ b = d.
Proof.
  revert c. induction a as [|x a IH]; intros [|y c] E L; simpl in *; try discriminate; auto.
  inversion E; subst. destruct (IH c) as [-> ->]; auto.
Qed.
Lemma forallb_no {X} (f : X -> bool) l : forallb f l = false -> exists x, In x l /\ f x = false.
Proof.
  induction l as [|a l IH]; simpl; [discriminate|]. destruct (f a) eqn:E; [|exists a; auto]. intros H.
  destruct (IH H) as (x & I & Ex). exists x; auto.
Qed.

Section Pair.
  Variable S : scalar.
  Local Open Scope K_scope.
  Add Ring Kring_pair : (kring S).
  Lemma place_two (A B : list name) a b : NoDup (A ++ B) -> length a = length A -> length b = length B ->
    map (place (A ++ B) (a ++ b)) A = a /\ map (place (A ++ B) (a ++ b)) B = b.
  Proof.
    intros N La Lb. assert (E : map (place (A ++ B) (a ++ b)) (A ++ B) = a ++ b) by (apply place_in; auto; rewrite !app_length; lia).
    rewrite map_app in E. apply app_inj_len in E; auto. rewrite map_length; auto.
  Qed.
  Lemma amplitude_pair Q (g h : act S) o1 o2 i1 i2 : NoDup Q -> act_ok Q g -> act_ok Q h -> apart g h ->
    wires_out Q [g; h] = act_outs g ++ act_outs h -> wires_in Q [g; h] = act_ins g ++ act_ins h ->
    bits (length (act_outs g)) o1 -> bits (length (act_outs h)) o2 -> bits (length (act_ins g)) i1 -> bits (length (act_ins h)) i2 ->
    amplitude Q [g; h] (o1 ++ o2) (i1 ++ i2) = amp g o1 i1 * amp h o2 i2.
  Proof.
    intros NQ [Ng Ig] [Nh Ih] Ap Wo Wi Bo1 Bo2 Bi1 Bi2. unfold amplitude. rewrite Wo, Wi. cbn [run fold_left].
    set (x := place (act_outs g ++ act_outs h) (o1 ++ o2)). set (y := place (act_ins g ++ act_ins h) (i1 ++ i2)).
    assert (Bo : bits (length (act_outs g ++ act_outs h)) (o1 ++ o2)) by (rewrite app_length; apply bits_app; auto).
    assert (Bi : bits (length (act_ins g ++ act_ins h)) (i1 ++ i2)) by (rewrite app_length; apply bits_app; auto).
    assert (Bx : forall q, (x q < 2)%nat) by (intros q; apply bits_place; auto).
    assert (By : forall q, (y q < 2)%nat) by (intros q; apply bits_place; auto).
    assert (Og : forall q, In q (act_outs g) <-> ends_out (word_at g q) = true).
    { intros q. unfold act_outs. rewrite filter_In. split; [tauto|]. intros E. split; auto. apply word_at_on. intros Z. rewrite Z in E. discriminate. }
    assert (Oh : forall q, In q (act_outs h) <-> ends_out (word_at h q) = true).
    { intros q. unfold act_outs. rewrite filter_In. split; [tauto|]. intros E. split; auto. apply word_at_on. intros Z. rewrite Z in E. discriminate. }
    assert (Jg : forall q, In q (act_ins g) <-> starts_in (word_at g q) = true).
    { intros q. unfold act_ins. rewrite filter_In. split; [tauto|]. intros E. split; auto. apply word_at_on. intros Z. rewrite Z in E. discriminate. }
    assert (Jh : forall q, In q (act_ins h) <-> starts_in (word_at h q) = true).
    { intros q. unfold act_ins. rewrite filter_In. split; [tauto|]. intros E. split; auto. apply word_at_on. intros Z. rewrite Z in E. discriminate. }
    assert (No : NoDup (act_outs g ++ act_outs h)).
    { apply NoDup_app_iff. split; [apply NoDup_filter; auto|]. split; [apply NoDup_filter; auto|]. intros q I1 I2. unfold act_outs in *. apply filter_In in I1, I2. apply (Ap q); tauto. }
    assert (Ni : NoDup (act_ins g ++ act_ins h)).
    { apply NoDup_app_iff. split; [apply NoDup_filter; auto|]. split; [apply NoDup_filter; auto|]. intros q I1 I2. unfold act_ins in *. apply filter_In in I1, I2. apply (Ap q); tauto. }
    destruct (@place_two (act_outs g) (act_outs h) o1 o2 No) as [Xg Xh]; [apply Bo1|apply Bo2|]. fold x in Xg, Xh.
    destruct (@place_two (act_ins g) (act_ins h) i1 i2 Ni) as [Yg Yh]; [apply Bi1|apply Bi2|]. fold y in Yg, Yh.
    assert (X0 : forall q, ends_out (word_at g q) = false -> ends_out (word_at h q) = false -> x q = 0%nat).
    { intros q E1 E2. apply place_out. rewrite in_app_iff, Og, Oh, E1, E2. intros [Z|Z]; discriminate. }
    assert (Y0 : forall q, starts_in (word_at g q) = false -> starts_in (word_at h q) = false -> y q = 0%nat).
    { intros q E1 E2. apply place_out. rewrite in_app_iff, Jg, Jh, E1, E2. intros [Z|Z]; discriminate. }
    assert (Dep : forall f : act S, incl (on f) Q -> forall a, depends_on Q (fun m => matrix Q f a m)).
    { intros f If a s s' Es. unfold matrix. f_equal.
      - f_equal. apply forallb_iff. split; intros H q Iq; specialize (H q Iq); rewrite (Es q) in *; auto.
      - f_equal. apply map_ext_in. intros q Iq. apply Es. apply If. unfold act_ins in Iq. apply filter_In in Iq; tauto. }
    assert (Dep' : forall f : act S, incl (on f) Q -> forall a, depends_on Q (fun m => matrix Q f m a)).
    { intros f If a s s' Es. unfold matrix. f_equal.
      - f_equal. apply forallb_iff. split; intros H q Iq; specialize (H q Iq); rewrite (Es q) in *; auto.
      - f_equal. apply map_ext_in. intros q Iq. apply Es. apply If. unfold act_outs in Iq. apply filter_In in Iq; tauto. }
    assert (E1 : forall m, evolve Q g (basis Q y) m = matrix Q g m y).
    { intros m. unfold evolve. rewrite <- (@basis_pair S Q y (fun before => matrix Q g m before)); auto.
      apply esum_ext_all. intros s. ring. }
    set (mid := fun q => if mem q (on g) then x q else y q).
    assert (E2 : evolve Q h (evolve Q g (basis Q y)) x = matrix Q h x mid * matrix Q g mid y).
    { unfold evolve at 1. rewrite <- (@basis_pair S Q mid (fun m => matrix Q h x m * matrix Q g m y)); auto.
      - apply esum_ext_all. intros m. rewrite E1. unfold basis. destruct (forallb (fun q => Nat.eqb (m q) (mid q)) Q) eqn:F.
        + unfold kdelta. ring.
        + assert (Z : exists q, In q Q /\ m q <> mid q).
          { apply forallb_no in F as (q & Iq & Eq). exists q. split; auto. apply Nat.eqb_neq; auto. }
          destruct Z as (q & Iq & Nq). unfold mid in Nq. destruct (mem q (on g)) eqn:M.
          * apply mem_In in M. assert (Wh : word_at h q = []) by (apply word_at_off; intros J; exact (Ap q M J)).
            assert (Zh : matrix Q h x m = 0).
            { unfold matrix. replace (forallb _ Q) with false; [unfold kdelta; ring|]. symmetry. apply not_true_is_false. intros T.
              rewrite forallb_forall in T. specialize (T q Iq). rewrite Wh in T. simpl in T. apply Nat.eqb_eq in T. congruence. }
            rewrite Zh. unfold kdelta. ring.
          * apply mem_false in M. assert (Wg : word_at g q = []) by (apply word_at_off; auto).
            assert (Zg : matrix Q g m y = 0).
            { unfold matrix. replace (forallb _ Q) with false; [unfold kdelta; ring|]. symmetry. apply not_true_is_false. intros T.
              rewrite forallb_forall in T. specialize (T q Iq). rewrite Wg in T. simpl in T. apply Nat.eqb_eq in T. congruence. }
            rewrite Zg. unfold kdelta. ring.
      - intros q _. unfold mid. destruct (mem q (on g)); auto.
      - intros s s' Es. f_equal; [apply (Dep h Ih x)|apply (Dep' g Ig y)]; auto. }
    rewrite E2. unfold matrix.
    assert (T1 : forallb (fun q => wire_ok (word_at h q) (mid q) (x q)) Q = true).
    { apply forallb_forall. intros q Iq. unfold mid. destruct (mem q (on g)) eqn:M.
      - apply mem_In in M. assert (Wh : word_at h q = []) by (apply word_at_off; intros J; exact (Ap q M J)).
        rewrite Wh. simpl. apply Nat.eqb_refl.
      - apply mem_false in M. assert (Wg : word_at g q = []) by (apply word_at_off; auto). unfold wire_ok.
        destruct (word_at h q) as [|a w] eqn:Wh.
        + rewrite X0, Y0; auto; rewrite ?Wg, ?Wh; auto.
        + destruct (starts_in (a :: w)) eqn:S1; destruct (ends_out (a :: w)) eqn:F1; simpl orb; simpl andb; auto;
            rewrite ?X0, ?Y0; rewrite ?Wg, ?Wh; auto. }
    assert (T2 : forallb (fun q => wire_ok (word_at g q) (y q) (mid q)) Q = true).
    { apply forallb_forall. intros q Iq. unfold mid. destruct (mem q (on g)) eqn:M.
      - apply mem_In in M. assert (Wh : word_at h q = []) by (apply word_at_off; intros J; exact (Ap q M J)). unfold wire_ok.
        destruct (word_at g q) as [|a w] eqn:Wg.
        + rewrite X0, Y0; auto; rewrite ?Wg, ?Wh; auto.
        + destruct (starts_in (a :: w)) eqn:S1; destruct (ends_out (a :: w)) eqn:F1; simpl orb; simpl andb; auto;
            rewrite ?X0, ?Y0; rewrite ?Wg, ?Wh; auto.
      - apply mem_false in M. assert (Wg : word_at g q = []) by (apply word_at_off; auto). rewrite Wg. simpl. apply Nat.eqb_refl. }
    rewrite T1, T2, Xh, Yg.
    assert (M1 : map mid (act_ins h) = i2).
    { rewrite <- Yh. apply map_ext_in. intros q Iq. unfold mid. unfold act_ins in Iq. apply filter_In in Iq as [Iq _].
      destruct (mem q (on g)) eqn:M; auto. apply mem_In in M. destruct (Ap q M Iq). }
    assert (M2 : map mid (act_outs g) = o1).
    { rewrite <- Xg. apply map_ext_in. intros q Iq. unfold mid. unfold act_outs in Iq. apply filter_In in Iq as [Iq _].
      apply mem_In in Iq. rewrite Iq. auto. }
    rewrite M1, M2. unfold kdelta. ring.
  Qed.
End Pair.

Section Mul.
  Variable S : scalar.
  Notation op := (op S).
  Local Open Scope K_scope.

  Definition names_from (m n : nat) : list name := map (fun i => NI (Z.of_nat i)) (seq m n).
  Lemma names_from_In m n q : In q (names_from m n) <-> exists i, q = NI (Z.of_nat i) /\ (m <= i < m + n)%nat.
  Proof.
    unfold names_from. rewrite in_map_iff. split; intros (i & H1 & H2); exists i; [apply in_seq in H2|rewrite in_seq]; auto.
  Qed.
  Lemma names_from_NoDup m n : NoDup (names_from m n).
  Proof. apply FinFun.Injective_map_NoDup; [|apply seq_NoDup]. intros x y E. assert (Z.of_nat x = Z.of_nat y) by congruence. lia. Qed.
  Lemma names_from_sorted m n : StronglySorted (below name_lt) (names_from m n).
  Proof.
    revert m. induction n as [|n IH]; intros m; simpl; constructor; [apply IH|].
    apply Forall_forall. intros q I. apply names_from_In in I as (i & -> & L). unfold below. simpl. f_equal. apply Z.ltb_lt. lia.
  Qed.
  Lemma range_split m n : range_names (m + n) = range_names m ++ names_from m n.
  Proof. unfold range_names, names_from. rewrite seq_app, map_app. auto. Qed.
  Lemma mul_eq (a b : op) sa sb : op_shape a = Ok sa -> op_shape b = Ok sb -> (sa ++ sb)%list <> [] ->
    let ga := (NT [NI 0; NT (range_names (length sa))], Gate 0%Z (range_names (length sa)) a) in
    let gb := (NT [NI 0; NT (names_from (length sa) (length sb))], Gate 0%Z (names_from (length sa) (length sb)) b) in
    op_mul a b = Ok (OCirc [ga; gb]) /\ NoDup (keys [ga; gb]).
  Proof.
    intros Ea Eb Ne ga gb.
    assert (Nk : fst ga <> fst gb).
    { simpl. intros E. assert (E' : range_names (length sa) = names_from (length sa) (length sb)) by congruence.
      destruct sa as [|r sa]; [destruct sb; [auto|discriminate E']|]. destruct sb as [|r' sb]; [discriminate E'|].
      unfold range_names, names_from in E'. simpl in E'. assert (Z.of_nat 0 = Z.of_nat (Datatypes.S (length sa))) by congruence. lia. }
    split; [|constructor; [intros [E|[]]; congruence|repeat constructor; auto]].
    assert (La : op_len a = Ok (length sa)) by (unfold op_len; rewrite Ea; auto).
    assert (Lb : op_len b = Ok (length sb)) by (unfold op_len; rewrite Eb; auto).
    unfold op_mul. rewrite La. cbn [bind].
    assert (E1 : c_append a (range_names (length sa)) (Some 0%Z) None [] = Ok [ga]).
    { apply c_append_ok. split; [apply range_NoDup|]. split; [rewrite range_length; auto|reflexivity]. }
    rewrite E1. cbn [bind]. rewrite Lb. cbn [bind].
    assert (E2 : c_append b (names_from (length sa) (length sb)) (Some 0%Z) None [ga] = Ok [ga; gb]).
    { apply c_append_ok. split; [apply names_from_NoDup|]. split; [unfold names_from; rewrite map_length, seq_length; auto|].
      rewrite set_fresh; auto. intros [E|[]]. apply Nk. exact E. }
    unfold names_from in E2 at 1. rewrite E2. auto.
  Qed.
  Theorem mul_ok (a b : op) sa sb : op_wf a -> op_wf b -> op_shape a = Ok sa -> op_shape b = Ok sb ->
    op_pure a = Ok true -> op_pure b = Ok true -> (sa ++ sb)%list <> [] ->
    (forall r, In r (sa ++ sb)%list -> alternating (role_word r)) ->
    exists r sh v, op_mul a b = Ok r /\ op_wf r /\ op_pure r = Ok true /\ op_shape r = Ok sh /\ length sh = (length sa + length sb)%nat /\
      count role_out sh = (count role_out sa + count role_out sb)%nat /\ count role_in sh = (count role_in sa + count role_in sb)%nat /\
      tensor_pure r = Ok v /\ complete v /\ tval_shape v = twos (count role_out sh + count role_in sh) /\
      forall o1 o2 i1 i2, bits (count role_out sa) o1 -> bits (count role_out sb) o2 -> bits (count role_in sa) i1 -> bits (count role_in sb) i2 ->
        tval_value v ((o1 ++ o2) ++ i1 ++ i2) = op_amp a o1 i1 * op_amp b o2 i2.
  Proof.
    intros Wa Wb Ea Eb Pa Pb Ne Alt. destruct (mul_eq _ _ Ea Eb Ne) as [Em Nk].
    set (ga := (NT [NI 0; NT (range_names (length sa))], Gate 0%Z (range_names (length sa)) a)) in *.
    set (gb := (NT [NI 0; NT (names_from (length sa) (length sb))], Gate 0%Z (names_from (length sa) (length sb)) b)) in *.
    set (c := [ga; gb]) in *. set (Q := range_names (length sa + length sb)).
    assert (G : gates_ok c).
    { intros k g [E|[E|[]]]; inversion E; subst; simpl.
      - split; [apply range_NoDup|]. unfold op_len. rewrite Ea, range_length. auto.
      - split; [apply names_from_NoDup|]. unfold op_len. rewrite Eb. unfold names_from. rewrite map_length, seq_length. auto. }
    assert (W : op_wf (OCirc c)).
    { constructor; auto. intros k g [E|[E|[]]]; inversion E; subst; auto. }
    assert (Dj : forall q, In q (range_names (length sa)) -> ~ In q (names_from (length sa) (length sb))).
    { intros q I J. apply (names_from_In 0 (length sa)) in I as (i & -> & L). apply names_from_In in J as (j & E & L').
      assert (Z.of_nat i = Z.of_nat j) by congruence. lia. }
    assert (Reg : register c Q).
    { split; [|apply range_sorted]. intros q. unfold Q. rewrite range_split, in_app_iff. unfold used. split.
      - intros [I|I]; [exists (fst ga), (snd ga)|exists (fst gb), (snd gb)]; simpl; auto.
      - intros (k & g & [E|[E|[]]] & I); inversion E; subst; auto. }
    set (A := gate_act ga). set (B := gate_act gb).
    assert (EA : A = Act (range_names (length sa)) (map role_word sa) (op_amp a)).
    { unfold A, gate_act, gact. simpl. rewrite (shape_or_eq _ Ea). auto. }
    assert (EB : B = Act (names_from (length sa) (length sb)) (map role_word sb) (op_amp b)).
    { unfold B, gate_act, gact. simpl. rewrite (shape_or_eq _ Eb). auto. }
    assert (Hq : forall q, history [A; B] q = (word_at A q ++ word_at B q)%list) by (intros q; unfold history; simpl; rewrite app_nil_r; auto).
    assert (Wn : forall qs (sh : list role) (f : ampl S) q, (forall r, In r sh -> alternating (role_word r)) -> alternating (word_at (Act qs (map role_word sh) f) q)).
    { intros qs sh f q H. unfold word_at. simpl. destruct (get q (combine qs (map role_word sh))) eqn:Eg; [|exact I].
      apply get_In, in_combine_r, in_map_iff in Eg as (r & <- & Ir). auto. }
    assert (OnA : on A = range_names (length sa)) by (rewrite EA; auto).
    assert (OnB : on B = names_from (length sa) (length sb)) by (rewrite EB; auto).
    assert (Al : forall q, alternating (history [A; B] q)).
    { intros q. rewrite Hq. destruct (mem q (on A)) eqn:M.
      - apply mem_In in M. rewrite (word_at_off B q), app_nil_r by (rewrite OnB; apply Dj; rewrite <- OnA; auto).
        rewrite EA. apply Wn. intros r Ir. apply Alt, in_app_iff; auto.
      - apply mem_false in M. rewrite (word_at_off A q) by auto. simpl. rewrite EB. apply Wn. intros r Ir. apply Alt, in_app_iff; auto. }
    assert (Apt : apart_ok (map_circ (@spec_of S) c)).
    { apply once_apart. constructor; [|repeat constructor]. constructor; [|constructor]. intros _ q I. apply Dj. exact I. }
    assert (Srt : StronglySorted (@earlier S) c) by (repeat constructor; unfold earlier; simpl; lia).
    destruct (@register_exists S c) as (Q' & AQ).
    { intros x y (k & g & I & Ix) (k' & g' & I' & Iy) _.
      assert (Nm : forall k g z, In (k, g) c -> In z (g_qubits g) -> exists i, z = NI i).
      { intros k1 g1 z [E|[E|[]]] Iz; inversion E; subst; [apply (names_from_In 0) in Iz as (i & -> & _)|apply names_from_In in Iz as (i & -> & _)]; eauto. }
      destruct (Nm k g x I Ix) as (i & ->), (Nm k' g' y I' Iy) as (j & ->). simpl. eauto. }
    assert (Q' = Q) as -> by (apply (@register_unique S c c Q' Q); auto; [tauto|apply all_qubits_register; auto]).
    destruct (@shape_exists S c c Q G Apt (Permutation_refl c) Srt Al AQ) as (sh & Es).
    destruct (@any_order S c sh c G Es (Permutation_refl c) Srt) as (Q2 & AQ2 & _ & Co & Ci & Esh & Am).
    rewrite AQ in AQ2. inversion AQ2; subst Q2. clear AQ2.
    change (map (@gate_act S) c) with [A; B] in *.
    assert (P : op_pure (OCirc c) = Ok true).
    { eapply pure_circ_rev; eauto. intros k g [E|[E|[]]]; inversion E; subst; auto. }
    assert (Wo : wires_out Q [A; B] = (act_outs A ++ act_outs B)%list).
    { unfold wires_out, Q, act_outs. rewrite range_split, filter_app, OnA, OnB. f_equal; apply filter_ext_in; intros q I; rewrite Hq.
      - rewrite (word_at_off B q), app_nil_r by (rewrite OnB; apply Dj; auto). auto.
      - rewrite (word_at_off A q) by (rewrite OnA; intros J; apply (Dj q J I)). auto. }
    assert (Wi : wires_in Q [A; B] = (act_ins A ++ act_ins B)%list).
    { unfold wires_in, Q, act_ins. rewrite range_split, filter_app, OnA, OnB. f_equal; apply filter_ext_in; intros q I; rewrite Hq.
      - rewrite (word_at_off B q), app_nil_r by (rewrite OnB; apply Dj; auto). auto.
      - rewrite (word_at_off A q) by (rewrite OnA; intros J; apply (Dj q J I)). auto. }
    assert (Lb : length (names_from (length sa) (length sb)) = length sb) by (unfold names_from; rewrite map_length, seq_length; auto).
    assert (Oa : length (act_outs A) = count role_out sa) by (rewrite EA; apply act_outs_count; [apply range_NoDup|apply range_length]).
    assert (Ob : length (act_outs B) = count role_out sb) by (rewrite EB; apply act_outs_count; [apply names_from_NoDup|auto]).
    assert (Ia : length (act_ins A) = count role_in sa) by (rewrite EA; apply act_ins_count; [apply range_NoDup|apply range_length]).
    assert (Ib : length (act_ins B) = count role_in sb) by (rewrite EB; apply act_ins_count; [apply names_from_NoDup|auto]).
    rewrite Wo, app_length, Oa, Ob in Co. rewrite Wi, app_length, Ia, Ib in Ci.
    destruct (conv_ok W) as [Hc _]. destruct (Hc P) as (sh' & Es' & v & Ev & Cv & Sv & Vv).
    rewrite Es in Es'. inversion Es'; subst sh'.
    exists (OCirc c), sh, v. split; auto. split; auto. split; auto. split; auto.
    split; [rewrite Esh, map_length; unfold Q; apply range_length|]. split; auto. split; auto. split; auto. split; auto. split; auto.
    intros o1 o2 i1 i2 Bo1 Bo2 Bi1 Bi2.
    assert (Bo : bits (count role_out sh) (o1 ++ o2)) by (rewrite Co; apply bits_app; auto).
    assert (Bi : bits (count role_in sh) (i1 ++ i2)) by (rewrite Ci; apply bits_app; auto).
    rewrite Vv, Am by auto. rewrite amplitude_pair; rewrite ?Oa, ?Ob, ?Ia, ?Ib; auto.
    - apply range_NoDup.
    - split; rewrite OnA; [apply range_NoDup|]. intros q I. unfold Q. rewrite range_split, in_app_iff. auto.
    - split; rewrite OnB; [apply names_from_NoDup|]. intros q I. unfold Q. rewrite range_split, in_app_iff. auto.
  Qed.
End Mul.
