(** The value of the network of a clause is the clause's part of the energy. *)
From Coq Require Import Reals Lra.
From Verif Require Import Base Scalar NetSpec Sums NetAlg ModelArray ModelTN TNSpec ModelVal ContractData ContractUser
  Complex QaoaSpec ModelQaoa QaoaNet QaoaBuild QaoaMath QaoaCone QaoaPairs.
Set Implicit Arguments.
Open Scope nat_scope.
Add Ring CKring_qv : (kring CK).

Section Value.
  Variable iter : list Z -> list Z.
  Variable c : csp.
  Hypothesis iter_perm : forall l, Permutation (iter l) l.
  Hypothesis valid : valid_csp c.
  Variable cl : list Z.
  Variable p : nat.

  Notation cone := (cone c cl).
  Notation fresh := (fresh c cl).
  Notation turns := (turns iter c cl p).
  Definition lab (j q : Z) : name := merge_turns turns (qname j q).
  Definition up (i : nat) (q : Z) : name := lab (Z.of_nat i) q.
  Definition down (i : nat) (q : Z) : name := lab (- Z.of_nat i) q.
  (** the variables of round [i] that were already in the cone *)
  Definition old (i : nat) : list Z := match i with 0 => [] | Datatypes.S i => cone i end.

  Lemma cone_split i : cone i = old i ++ fresh i.
  Proof. destruct i; reflexivity. Qed.
  Lemma turns_pos q t : In (q, t) turns -> 0 < t.
  Proof. intros I. apply turns_In in I as (i & _ & -> & _); auto. lia. Qed.

  Lemma lab_shape j q : lab j q = qname j q \/ lab j q = qname 0 q.
  Proof.
    unfold lab. generalize turns. intros ts. revert j. induction ts as [|t ts IH]; intros j; [left; reflexivity|].
    unfold merge_turns. cbn [fold_left]. fold (merge_turns ts). rewrite merge_turn_q.
    destruct (_ && _); [|apply IH]. destruct (IH 0%Z); auto.
  Qed.
  Lemma lab_0 q : lab 0 q = qname 0 q.
  Proof. destruct (lab_shape 0 q); auto. Qed.
  Lemma lab_var j q k r : lab j q = lab k r -> q = r.
  Proof.
    intros E. destruct (lab_shape j q) as [A|A]; destruct (lab_shape k r) as [B|B]; rewrite A, B in E; apply qname_inj in E; tauto.
  Qed.
  Lemma lab_fresh i q j : i <= p -> In q (fresh i) -> Z.abs j = Z.of_nat i -> lab j q = qname 0 q.
  Proof.
    intros Li I E. destruct i as [|i].
    - assert (j = 0%Z) by lia. subst. apply lab_0.
    - unfold lab. apply merge_turns_hit with (Datatypes.S i); auto; [intros; eapply turns_pos; eauto|].
      apply turns_In; auto. exists i. auto.
  Qed.
  Lemma old_not_fresh i q : In q (old i) -> ~ In q (fresh i).
  Proof. destruct i as [|i]; simpl; [tauto|]. intros I J. apply grow_In in J. tauto. Qed.
  Lemma lab_old i q j : In q (old i) -> Z.abs j = Z.of_nat i -> lab j q = qname j q.
  Proof.
    intros I E. unfold lab. apply merge_turns_keep. intros t It Et. apply turns_In in It as (k & _ & -> & Ik); auto.
    assert (i = Datatypes.S k) by lia. subst i. apply old_not_fresh in I. apply I, Ik.
  Qed.

  (** the edges of round [i] *)
  Definition names (i : nat) : list name := concat (map (fun q => [up i q; down i q]) (old i)) ++ map (up i) (fresh i).
  Lemma names_In i e : i <= p -> (In e (names i) <-> exists j q, e = lab j q /\ Z.abs j = Z.of_nat i /\ In q (cone i)).
  Proof.
    intros Li. unfold names. rewrite in_app_iff, in_concat, in_map_iff, cone_split. split.
    - intros [(m & Im & I)|(q & <- & I)].
      + apply in_map_iff in Im as (q & <- & Iq). destruct I as [<-|[<-|[]]].
        * exists (Z.of_nat i), q. split; auto. split; [lia|apply in_app_iff; auto].
        * exists (- Z.of_nat i)%Z, q. split; auto. split; [lia|apply in_app_iff; auto].
      + exists (Z.of_nat i), q. split; auto. split; [lia|apply in_app_iff; auto].
    - intros (j & q & -> & E & I). apply in_app_iff in I as [I|I].
      + left. exists [up i q; down i q]. split; [apply in_map_iff; eauto|].
        destruct (Z.abs_eq_or_opp j) as [Q|Q]; [left|right; left]; unfold up, down; f_equal; lia.
      + right. exists q. split; auto. unfold up. rewrite !(@lab_fresh i); auto; lia.
  Qed.
  Lemma names_NoDup i : i <= p -> NoDup (names i).
  Proof.
    intros Li. unfold names. apply NoDup_app'.
    - apply NoDup_flat.
      + destruct i; simpl; [constructor|apply cone_NoDup].
      + intros q I. destruct i as [|i]; [destruct I|]. constructor; [|constructor; [intros []|constructor]].
        intros [E|[]]. unfold up, down in E. rewrite !(@lab_old (Datatypes.S i)) in E by (auto; lia). apply qname_inj in E as [E _]. lia.
      + intros q r a _ _ [<-|[<-|[]]] [E|[E|[]]]; apply lab_var in E; auto.
    - apply FinFun.Injective_map_NoDup; [intros a b E; eapply lab_var; eauto|]. destruct i; simpl; [apply dedup_NoDup|apply minus_NoDup].
    - intros e I J. apply in_concat in I as (m & Im & I). apply in_map_iff in Im as (q & <- & Iq). apply in_map_iff in J as (r & <- & Ir).
      destruct I as [E|[E|[]]]; apply lab_var in E; subst r; eapply old_not_fresh; eauto.
  Qed.
  Lemma fresh_once i j q : In q (fresh i) -> In q (fresh j) -> i = j.
  Proof.
    intros I J. destruct i as [|i], j as [|j]; auto.
    - exfalso. simpl in J. apply grow_In in J as [J _]. apply J. apply (@cone_mono c cl 0); [lia|exact I].
    - exfalso. simpl in I. apply grow_In in I as [I _]. apply I. apply (@cone_mono c cl 0); [lia|exact J].
    - f_equal. eapply grow_once; eauto.
  Qed.
  Lemma names_disjoint i j e : i <= p -> j <= p -> In e (names i) -> In e (names j) -> i = j.
  Proof.
    intros Li Lj I J. apply names_In in I as (a & q & -> & Ea & I); auto. apply names_In in J as (b & r & E & Eb & J); auto.
    assert (q = r) by (eapply lab_var; eauto). subst r. rewrite cone_split in I, J. apply in_app_iff in I, J.
    destruct I as [I|I], J as [J|J].
    - rewrite (@lab_old i q a I Ea), (@lab_old j q b J Eb) in E. apply qname_inj in E as [E _]. lia.
    - rewrite (@lab_old i q a I Ea), (@lab_fresh j q b Lj J Eb) in E. apply qname_inj in E as [E _]. assert (i = 0) by lia. subst. destruct I.
    - rewrite (@lab_fresh i q a Li I Ea), (@lab_old j q b J Eb) in E. apply qname_inj in E as [E _]. assert (j = 0) by lia. subst. destruct J.
    - eapply fresh_once; eauto.
  Qed.
  (** the edges of the rounds before [i] *)
  Fixpoint below (i : nat) : list name := match i with 0 => [] | Datatypes.S i => names i ++ below i end.
  Lemma below_In i e : In e (below i) <-> exists k, k < i /\ In e (names k).
  Proof.
    induction i as [|i IH]; simpl.
    - split; [tauto|intros (k & Lk & _); lia].
    - rewrite in_app_iff, IH. split.
      + intros [I|(k & Lk & I)]; [exists i; auto|exists k; split; [lia|auto]].
      + intros (k & Lk & I). assert (Q : k = i \/ k < i) by lia. destruct Q as [->|Q]; eauto.
  Qed.
  Lemma below_NoDup i : i <= Datatypes.S p -> NoDup (below i).
  Proof.
    induction i as [|i IH]; intros Li; simpl; [constructor|]. apply NoDup_app'; [apply names_NoDup; lia|apply IH; lia|].
    intros e I J. apply below_In in J as (k & Lk & J). assert (i = k) by (apply names_disjoint with e; auto; lia). lia.
  Qed.
  Lemma final_legs e : 0 < p -> (leg_of (final_items iter c cl p) e <-> In e (below (Datatypes.S p))).
  Proof.
    intros Pp. rewrite below_In. unfold final_items.
    assert (Q : leg_of (relabel_items (merge_turns turns) (all_items iter c cl p)) e <-> exists k, k < Datatypes.S p /\ In e (names k)).
    { rewrite relabel_leg. split.
      - intros (e' & I & ->). apply all_legs in I as (i & Li & I). apply round_legs in I as (j & q & -> & [[E I]|[E I]]); auto.
        + exists i. split; [lia|]. apply names_In; [lia|]. exists j, q. auto.
        + exists (Datatypes.S i). split; [lia|]. apply names_In; [lia|]. exists j, q. split; auto. split; auto. lia.
      - intros (k & Lk & I). apply names_In in I as (j & q & -> & E & I); [|lia]. exists (qname j q). split; auto.
        apply all_legs. destruct k as [|k].
        + exists 0. split; auto. apply round_legs; auto. exists j, q. auto.
        + exists k. split; [lia|]. apply round_legs; auto. exists j, q. split; auto. right. split; auto. lia. }
    rewrite <- Q. unfold leg_of at 1. split.
    - intros (x & ls & I & Ie). apply in_app_iff in I as [I|[I|[]]]; [exists x, ls; auto|]. inversion I; subst.
      apply Q. exists 0. split; [lia|]. apply names_In; [lia|]. apply in_map_iff in Ie as (q & <- & Iq).
      exists 0%Z, q. rewrite lab_0. split; auto. split; auto. simpl. apply dedup_In. auto.
    - intros (x & ls & I & Ie). exists x, ls. rewrite in_app_iff. auto.
  Qed.

  (** ** the arrays *)
  Variable params : list R.
  Variable k : nat.
  Notation D := (node_data c p params k).
  Definition beta (i : nat) : R := from_end (betas p params) (Datatypes.S i).
  Definition gamma (i : nat) : R := from_end (gammas p params) (Datatypes.S i).

  Lemma XRot_at b i j : nd_at (XRot b) [i; j] = rotation b i j.
  Proof. unfold XRot, mat2, rotation. cbn [nd_at]. change (eqb i j) with (i =? j). reflexivity. Qed.
  Lemma mixer_up i q : D (qname (2 * Z.of_nat i + 1) q) = XRot (beta i).
  Proof.
    unfold node_data, qname. replace (2 * Z.of_nat i + 1 =? 0)%Z with false by (symmetry; apply Z.eqb_neq; lia).
    replace (Z.even (2 * Z.of_nat i + 1)) with false by (rewrite Z.add_comm, Z.even_add_mul_2; reflexivity).
    replace (0 <? 2 * Z.of_nat i + 1)%Z with true by (symmetry; apply Z.ltb_lt; lia).
    replace ((2 * Z.of_nat i + 1 + 1) / 2)%Z with (Z.of_nat (Datatypes.S i)) by (rewrite Nat2Z.inj_succ; apply Z.div_unique_exact; lia).
    unfold mixer_data. rewrite Nat2Z.id. replace (0 <? Z.of_nat (Datatypes.S i))%Z with true by (symmetry; apply Z.ltb_lt; lia). reflexivity.
  Qed.
  Lemma mixer_down i q : D (qname (- 2 * Z.of_nat i - 1) q) = XRot (- beta i).
  Proof.
    unfold node_data, qname. replace (- 2 * Z.of_nat i - 1 =? 0)%Z with false by (symmetry; apply Z.eqb_neq; lia).
    replace (Z.even (- 2 * Z.of_nat i - 1)) with false.
    2:{ replace (- 2 * Z.of_nat i - 1)%Z with (1 + 2 * (- Z.of_nat i - 1))%Z by lia. rewrite Z.even_add_mul_2. reflexivity. }
    replace (0 <? - 2 * Z.of_nat i - 1)%Z with false by (symmetry; apply Z.ltb_ge; lia).
    replace ((- 2 * Z.of_nat i - 1 + -1) / 2)%Z with (- Z.of_nat (Datatypes.S i))%Z by (rewrite Nat2Z.inj_succ; apply Z.div_unique_exact; lia).
    unfold mixer_data. replace (0 <? - Z.of_nat (Datatypes.S i))%Z with false by (symmetry; apply Z.ltb_ge; lia).
    rewrite Z.opp_involutive, Nat2Z.id. reflexivity.
  Qed.
  Lemma NI_inj a b : map NI a = map NI b -> a = b.
  Proof. revert b; induction a as [|x a IH]; intros [|y b] E; simpl in E; try discriminate; auto. inversion E. f_equal; auto. Qed.
  Lemma fst_inj {X Y} (l : list (X * Y)) a b : NoDup (map fst l) -> In a l -> In b l -> fst a = fst b -> a = b.
  Proof.
    induction l as [|z l IH]; intros ND Ia Ib E; [destruct Ia|]. inversion ND as [|? ? N ND']; subst.
    destruct Ia as [Ia|Ia], Ib as [Ib|Ib]; auto; [congruence| |]; exfalso; apply N.
    - rewrite Ia, E. apply in_map; auto.
    - rewrite Ib, <- E. apply in_map; auto.
  Qed.
  Lemma table_hit q : In q c -> table c (NT (map NI (fst q))) = (repeat 2 (length (fst q)), snd q).
  Proof.
    intros I. unfold table. destruct (find _ c) as [r|] eqn:F.
    - apply find_some in F as [Ir E]. destruct (eqb_spec (NT (map NI (fst r))) (NT (map NI (fst q)))) as [E'|]; [|discriminate].
      inversion E' as [E2]. apply NI_inj in E2.
      assert (r = q) by (apply (fst_inj c); auto). subst. reflexivity.
    - exfalso. apply (find_none _ _ F) in I. rewrite eqb_refl in I. discriminate.
  Qed.
  Lemma phase_up i q v : In q c -> nd_at (D (cname (2 * Z.of_nat i + 2) (fst q))) v = cis (gamma i * snd q v).
  Proof.
    intros I. unfold node_data, cname. replace (2 * Z.of_nat i + 2 =? 0)%Z with false by (symmetry; apply Z.eqb_neq; lia).
    replace (Z.even (2 * Z.of_nat i + 2)) with true by (rewrite Z.add_comm, Z.even_add_mul_2; reflexivity).
    replace ((2 * Z.of_nat i + 2) / 2)%Z with (Z.of_nat (Datatypes.S i)) by (rewrite Nat2Z.inj_succ; apply Z.div_unique_exact; lia).
    unfold phase_data. rewrite table_hit by auto. rewrite Nat2Z.id. replace (0 <? Z.of_nat (Datatypes.S i))%Z with true by (symmetry; apply Z.ltb_lt; lia). reflexivity.
  Qed.
  Lemma phase_down i q v : In q c -> nd_at (D (cname (- 2 * Z.of_nat i - 2) (fst q))) v = cis (- (gamma i * snd q v)).
  Proof.
    intros I. unfold node_data, cname. replace (- 2 * Z.of_nat i - 2 =? 0)%Z with false by (symmetry; apply Z.eqb_neq; lia).
    replace (Z.even (- 2 * Z.of_nat i - 2)) with true.
    2:{ replace (- 2 * Z.of_nat i - 2)%Z with (0 + 2 * (- Z.of_nat i - 1))%Z by lia. rewrite Z.even_add_mul_2. reflexivity. }
    replace ((- 2 * Z.of_nat i - 2) / 2)%Z with (- Z.of_nat (Datatypes.S i))%Z by (rewrite Nat2Z.inj_succ; apply Z.div_unique_exact; lia).
    unfold phase_data. rewrite table_hit by auto. replace (0 <? - Z.of_nat (Datatypes.S i))%Z with false by (symmetry; apply Z.ltb_ge; lia).
    rewrite Z.opp_involutive, Nat2Z.id. reflexivity.
  Qed.

  Local Open Scope K_scope.
  Definition item_at (s : env (A := name)) (z : name * list name) : CK := nd_at (D (fst z)) (map s (snd z)).
  (** the nodes of one round *)
  Definition round_at (i : nat) (s : env (A := name)) : CK :=
    prodf (fun q => rotation (beta i) (s (up i q)) (s (up (Datatypes.S i) q)) * rotation (- beta i) (s (down i q)) (s (down (Datatypes.S i) q))) (cone i) *
    phases (gamma i) (filter (fun q => touches (cone i) (fst q)) c) (fun q => s (up (Datatypes.S i) q)) (fun q => s (down (Datatypes.S i) q)).

  Lemma prodf_concat {X} (f : X -> CK) l : prodf f (concat l) = prodf (prodf f) l.
  Proof. induction l as [|a r IH]; cbn [concat prodf]; auto. rewrite prodf_app, IH. reflexivity. Qed.

  Lemma round_value i s : prodf (item_at s) (relabel_items (merge_turns turns) (round_items iter c cl i)) = round_at i s.
  Proof.
    unfold relabel_items, round_items, round_at. rewrite map_app, prodf_app, !prodf_map, !prodf_concat, !prodf_map. f_equal.
    - rewrite (prodf_perm _ (iter_perm (cone i))). apply prodf_ext. intros q _.
      unfold mixer_items. cbn [prodf]. unfold item_at. cbn [fst snd map].
      rewrite mixer_up, mixer_down, !XRot_at. unfold up, down, lab.
      replace (Z.of_nat i + 1)%Z with (Z.of_nat (Datatypes.S i)) by lia.
      replace (- Z.of_nat i - 1)%Z with (- Z.of_nat (Datatypes.S i))%Z by lia. ring.
    - unfold phases.
      assert (Q : forall l, incl l c -> prodf (fun x => prodf (fun x0 => item_at s (fst x0, map (merge_turns turns) (snd x0))) (phase_items (cone i) (Z.of_nat i) (fst x))) l =
        prodf (fun q => cis (gamma i * snd q (map (fun q0 => s (up (Datatypes.S i) q0)) (fst q))) * cis (- (gamma i * snd q (map (fun q0 => s (down (Datatypes.S i) q0)) (fst q)))))
          (filter (fun q => touches (cone i) (fst q)) l)).
      { induction l as [|q l IH]; intros In'; [reflexivity|].
        cbn [prodf filter]. rewrite IH by (intros z Iz; apply In'; simpl; auto). unfold phase_items.
        destruct (touches (cone i) (fst q)); cbn [prodf]; [|ring].
        unfold item_at at 1 2. cbn [fst snd]. rewrite phase_up, phase_down by (apply In'; simpl; auto).
        rewrite !map_map. unfold up, down, lab.
        replace (Z.of_nat i + 1)%Z with (Z.of_nat (Datatypes.S i)) by lia.
        replace (- Z.of_nat i - 1)%Z with (- Z.of_nat (Datatypes.S i))%Z by lia. ring. }
      apply Q. apply incl_refl.
  Qed.

  (** ** the sum, round by round *)
  Variable t : list nat -> R.
  Hypothesis cl_in : In (cl, t) c.
  Definition cost_at (s : env (A := name)) : CK := item_at s (cname 0 cl, map (qname 0) cl).
  Lemma cost_value s : cost_at s = cr (/ 2 ^ k) * cr (t (map (fun q => s (qname 0 q)) cl)).
  Proof.
    unfold cost_at, item_at, cname, node_data. cbn [fst snd]. rewrite Z.eqb_refl. unfold cost_data.
    rewrite (@table_hit (cl, t) cl_in : table c (NT (map NI cl)) = _). cbn [nd_at snd]. rewrite map_map. ck; ring.
  Qed.
  Fixpoint upto (i : nat) (s : env (A := name)) : CK :=
    match i with 0%nat => cost_at s | Datatypes.S i => round_at i s * upto i s end.
  Definition two (l : list name) : list (name * list nat) := map (fun e => (e, [0; 1]%nat)) l.
  Lemma keys_two l : keys (two l) = l.
  Proof. unfold two, keys. rewrite map_map. apply map_id. Qed.
  Definition inner (i : nat) (s : env (A := name)) : CK := esum (two (below i)) (upto i) s.

  Lemma up_names i q : (i <= p)%nat -> In q (cone i) -> In (up i q) (names i).
  Proof. intros L I. apply names_In; auto. exists (Z.of_nat i), q. split; auto. split; auto. lia. Qed.
  Lemma down_names i q : (i <= p)%nat -> In q (cone i) -> In (down i q) (names i).
  Proof. intros L I. apply names_In; auto. exists (- Z.of_nat i)%Z, q. split; auto. split; auto. lia. Qed.

  Lemma round_dep i s s' : (i < p)%nat -> (forall e, In e (names i) \/ In e (names (Datatypes.S i)) -> s e = s' e) -> round_at i s = round_at i s'.
  Proof.
    intros L H. unfold round_at. f_equal.
    - apply prodf_ext. intros q I.
      rewrite !(H (up i q)), !(H (down i q)), !(H (up (Datatypes.S i) q)), !(H (down (Datatypes.S i) q)); auto;
        try (right; (apply up_names || apply down_names); [lia|apply cone_step; auto]; fail);
        left; (apply up_names || apply down_names); auto; lia.
    - apply prodf_ext. intros z I. apply filter_In in I as [I Tz].
      assert (C : forall q, In q (fst z) -> In q (cone (Datatypes.S i))).
      { intros q Iq. apply (@touched_cone c cl i (fst z)); auto. apply in_map; auto. }
      rewrite (map_ext_in (fun q => s (up (Datatypes.S i) q)) (fun q => s' (up (Datatypes.S i) q)) (fst z)) by (intros q Iq; apply H; right; apply up_names; auto).
      rewrite (map_ext_in (fun q => s (down (Datatypes.S i) q)) (fun q => s' (down (Datatypes.S i) q)) (fst z)) by (intros q Iq; apply H; right; apply down_names; auto).
      reflexivity.
  Qed.

  Lemma inner_S i s : (i < p)%nat -> inner (Datatypes.S i) s = esum (two (names i)) (fun s' => round_at i s' * inner i s') s.
  Proof.
    intros L. unfold inner. cbn [below upto]. unfold two at 1. rewrite map_app, esum_app. apply esum_ext_all. intros s'.
    apply esum_mul_l. intros s1 s2 H. apply round_dep; auto. intros e I. apply H. fold (two (below i)). rewrite keys_two. intros J.
    apply below_In in J as (m & Lm & J). destruct I as [I|I].
    - assert (i = m) by (apply names_disjoint with e; auto; lia). lia.
    - assert (Datatypes.S i = m) by (apply names_disjoint with e; auto; lia). lia.
  Qed.

  Lemma bridge i F G s : (i <= p)%nat -> dep2 (cone i) F -> (forall x y q, In q (fresh i) -> x q <> y q -> F x y = 0) ->
    (forall s', ranges (two (names i)) s s' -> G s' = F (fun q => s' (up i q)) (fun q => s' (down i q))) ->
    esum (two (names i)) G s = over (cone i) (fun x => over (cone i) (fun y => F x y)).
  Proof.
    intros L Dp Hz HG. unfold over. fold (dom (cone i)). rewrite pairs_over, cone_split.
    transitivity (esum (two (names i)) (fun s' => F (fun q => s' (up i q)) (fun q => s' (down i q))) s).
    { apply esum_ext; auto. rewrite keys_two. apply names_NoDup; auto. }
    symmetry. unfold names. fold (ndom (up i) (down i) (old i) (fresh i)).
    apply pairs_names with (C := []); auto.
    - intros q r N. repeat split; intros E; apply lab_var in E; auto.
    - rewrite <- cone_split. apply cone_NoDup.
    - intros q I E. unfold up, down in E. rewrite !(@lab_old i) in E by (auto; lia). apply qname_inj in E as [E _].
      assert (i = 0%nat) by lia. subst. destruct I.
    - intros q I. unfold up, down. rewrite !(@lab_fresh i); auto; lia.
    - intros q [].
    - intros x y s' H. apply Dp; intros q I; rewrite cone_split in I; apply (H q I).
  Qed.

  Definition lay (i : nat) : list (R * R) := map (fun j => (beta j, gamma j)) (seq 0 i).
  Lemma run_snoc b g l : forall i L, run c cl (l ++ [(b, g)]) i L =
    next c b g (cone (i + length l)) (grow c (cone (i + length l))) (run c cl l i L).
  Proof.
    induction l as [|[b' g'] l IH]; intros i L; cbn [app run length].
    - rewrite Nat.add_0_r. reflexivity.
    - rewrite IH, Nat.add_succ_r. reflexivity.
  Qed.
  Notation op i := (run c cl (lay i) 0 (observable (cl, t))).
  Lemma op_S i : op (Datatypes.S i) = next c (beta i) (gamma i) (cone i) (grow c (cone i)) (op i).
  Proof. unfold lay. rewrite seq_S, map_app. cbn [map Nat.add]. rewrite run_snoc, map_length, seq_length. reflexivity. Qed.
  Lemma op_dep i : dep2 (cone i) (op i).
  Proof.
    induction i as [|i IH].
    - cbn [lay seq map run]. exact (@observable_dep c (cl, t)).
    - rewrite op_S. apply next_dep. auto.
  Qed.
  Lemma op_fresh i x y q : In q (fresh i) -> x q <> y q -> op i x y = 0.
  Proof.
    intros I N. assert (Z : forall W, In q W -> same_on W x y = false).
    { intros W IW. destruct (same_on W x y) eqn:E; auto. rewrite same_on_spec in E. exfalso. apply N, E; auto. }
    destruct i as [|i].
    - cbn [lay seq map run]. unfold observable. rewrite Z by exact I. cbn [kdelta]. ring.
    - rewrite op_S. unfold next. rewrite Z by exact I. cbn [kdelta]. ring.
  Qed.

  Lemma inner_value i : (i <= p)%nat -> forall s, inner i s = cr (/ 2 ^ k) * op i (fun q => s (up i q)) (fun q => s (down i q)).
  Proof.
    induction i as [|i IH]; intros L s.
    - unfold inner. cbn [below two map esum upto lay seq run]. rewrite cost_value. f_equal. unfold observable. cbn [fst snd].
      assert (U : forall q, up 0 q = qname 0 q) by (intros; apply lab_0). assert (Dn : forall q, down 0 q = qname 0 q) by (intros; apply lab_0).
      replace (same_on (dedup cl) (fun q => s (up 0 q)) (fun q => s (down 0 q))) with true.
      2:{ symmetry. apply same_on_spec. intros q _. rewrite U, Dn. reflexivity. }
      cbn [kdelta]. rewrite (map_ext (fun q => s (up 0 q)) (fun q => s (qname 0 q))) by (intros; rewrite U; reflexivity). ring.
    - rewrite inner_S by lia. rewrite op_S. unfold next.
      set (x' := fun q => s (up (Datatypes.S i) q)). set (y' := fun q => s (down (Datatypes.S i) q)).
      replace (same_on (grow c (cone i)) x' y') with true.
      2:{ symmetry. apply same_on_spec. intros q I. unfold x', y', up, down. rewrite !(@lab_fresh (Datatypes.S i)); auto; lia. }
      pose proof (@bridge i (fun x y => prodf (fun q => rotation (beta i) (x q) (x' q) * rotation (- beta i) (y q) (y' q)) (cone i) * op i x y)
        (fun s' => prodf (fun q => rotation (beta i) (s' (up i q)) (x' q) * rotation (- beta i) (s' (down i q)) (y' q)) (cone i) *
           op i (fun q => s' (up i q)) (fun q => s' (down i q))) s) as B.
      match goal with |- _ = _ * (_ * (_ * ?O)) => transitivity (cr (/ 2 ^ k) * (kdelta true * (phases (gamma i) (filter (fun q => touches (cone i) (fst q)) c) x' y' *
        esum (two (names i)) (fun s' => prodf (fun q => rotation (beta i) (s' (up i q)) (x' q) * rotation (- beta i) (s' (down i q)) (y' q)) (cone i) *
           op i (fun q => s' (up i q)) (fun q => s' (down i q))) s))) end.
      2:{ do 3 apply f_equal. apply B; [lia| | |reflexivity].
          - intros x x1 y y1 Ex Ey. f_equal; [|apply op_dep; auto]. apply prodf_ext. intros q I. rewrite Ex, Ey by auto. reflexivity.
          - intros x y q I N. rewrite (op_fresh i x y q I N). ring. }
      clear B.
      cbn [kdelta]. rewrite kmul_1_l, <- !esum_scale. apply esum_ext; [rewrite keys_two; apply names_NoDup; lia|].
      intros s' [_ Rs]. rewrite keys_two in Rs.
      assert (Out : forall e, In e (names (Datatypes.S i)) -> s' e = s e).
      { intros e I. apply Rs. intros J. assert (i = Datatypes.S i) by (apply names_disjoint with e; auto; lia). lia. }
      rewrite IH by lia. unfold round_at.
      rewrite (prodf_ext _ (fun q => rotation (beta i) (s' (up i q)) (x' q) * rotation (- beta i) (s' (down i q)) (y' q)) (cone i)).
      2:{ intros q I. unfold x', y'. rewrite (Out (up (Datatypes.S i) q)), (Out (down (Datatypes.S i) q)); auto;
          [apply down_names|apply up_names]; auto; apply cone_step; auto. }
      replace (phases (gamma i) (filter (fun q => touches (cone i) (fst q)) c) (fun q => s' (up (Datatypes.S i) q)) (fun q => s' (down (Datatypes.S i) q)))
        with (phases (gamma i) (filter (fun q => touches (cone i) (fst q)) c) x' y'); [ring|].
      apply prodf_ext. intros z I. apply filter_In in I as [I Tz].
      assert (C : forall q, In q (fst z) -> In q (cone (Datatypes.S i))).
      { intros q Iq. apply (@touched_cone c cl i (fst z)); auto. apply in_map; auto. }
      rewrite (map_ext_in x' (fun q => s' (up (Datatypes.S i) q)) (fst z)) by (intros q Iq; symmetry; apply Out, up_names; auto).
      rewrite (map_ext_in y' (fun q => s' (down (Datatypes.S i) q)) (fst z)) by (intros q Iq; symmetry; apply Out, down_names; auto).
      reflexivity.
  Qed.

  Theorem cone_value : esum (two (names p)) (fun s => inner p s) env0 =
    cr (/ 2 ^ k) * over (cone p) (fun x => over (cone p) (fun y => op p x y)).
  Proof.
    rewrite (esum_ext_all _ _ (fun s => cr (/ 2 ^ k) * op p (fun q => s (up p q)) (fun q => s (down p q)))) by (intros; apply inner_value; auto).
    rewrite esum_scale. f_equal. apply bridge; auto; [apply op_dep|]. intros x y q. apply op_fresh.
  Qed.
End Value.
