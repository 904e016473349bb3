(** * Operations inside operations: a circuit placed on wires is the same as its operations placed there *)
From Coq Require Import Sorting.Permutation.
From Verif Require Import Base Scalar NetSpec Sums NetAlg CircSpec CircSum.
Set Implicit Arguments.

Section Flat.
  Variable S : scalar.
  Notation env := (env (A := name)).
  Local Open Scope K_scope.
  Add Ring K_ring_cf : (kring S).

  Lemma matrix_split Q R' (g : act S) a b : NoDup Q -> NoDup R' -> incl (on g) R' -> incl R' Q ->
    let rest := filter (fun q => negb (mem q R')) Q in
    matrix Q g a b = kdelta (eqb (map b rest) (map a rest)) * matrix R' g a b.
  Proof.
    intros NQ NR I1 I2 rest. unfold matrix. rewrite (eqb_map b a rest).
    rewrite (kmul_assoc S), <- kdelta_andb. f_equal. f_equal.
    apply eq_true_iff_eq. rewrite andb_true_iff, !forallb_forall. split.
    - intros H. split.
      + intros q Iq. unfold rest in Iq. apply filter_In in Iq as [Iq Nq]. specialize (H q Iq).
        assert (E : word_at g q = []).
        { destruct (word_at g q) eqn:W; auto. exfalso. apply negb_true_iff, mem_false in Nq. apply Nq, I1, word_at_on. congruence. }
        rewrite E in H. exact H.
      + intros q Iq. apply H, I2, Iq.
    - intros [H1 H2] q Iq. destruct (mem q R') eqn:M; [apply mem_In in M; auto|].
      assert (E : word_at g q = []).
      { destruct (word_at g q) eqn:W; auto. exfalso. apply mem_false in M. apply M, I1, word_at_on. congruence. }
      rewrite E. apply H1. unfold rest. apply filter_In. rewrite M. auto.
  Qed.

  Lemma matrix_depends R' Q (g : act S) a psi : incl (on g) Q -> incl R' Q -> depends_on (S := S) Q psi ->
    depends_on (S := S) Q (fun b => matrix R' g a b * psi b).
  Proof.
    intros I I2 D s s' E. f_equal; [|apply D; auto]. unfold matrix. f_equal.
    - f_equal. clear I. induction R' as [|q r IH]; simpl; auto. rewrite IH, (E q); auto; [apply I2; simpl; auto|intros x Ix; apply I2; simpl; auto].
    - f_equal. apply map_ext_in. intros q Iq. apply E, I. unfold act_ins in Iq. apply filter_In in Iq; tauto.
  Qed.

  (** only the wires of the operation are summed over *)
  Lemma evolve_on Q R' (g : act S) psi a : NoDup Q -> NoDup R' -> incl (on g) R' -> incl R' Q -> depends_on (S := S) Q psi ->
    (forall q, In q Q -> a q < 2)%nat ->
    evolve Q g psi a = esum (qdom R') (fun b => matrix R' g a b * psi b) a.
  Proof.
    intros NQ NR I1 I2 D B. unfold evolve.
    set (rest := filter (fun q => negb (mem q R')) Q).
    assert (P : Permutation Q (rest ++ R')).
    { eapply perm_trans; [apply (filter_split (fun q => mem q R'))|]. apply Permutation_app_head.
      apply NoDup_Permutation; [apply List.NoDup_filter; auto|auto|]. intros q. rewrite filter_In, mem_In. split; [tauto|]. intros Iq; split; auto. }
    assert (IQ : incl (on g) Q) by (intros q Iq; auto).
    rewrite (@esum_perm _ _ _ (qdom Q) (qdom rest ++ qdom R')).
    2:{ rewrite <- qdom_app. apply Permutation_map. auto. }
    2:{ rewrite keys_qdom; auto. }
    2:{ apply (depends_exten (@matrix_depends Q Q g a psi IQ (incl_refl Q) D)). }
    rewrite (@esum_ext_all _ _ _ _ _ (fun b => kdelta (eqb (map b (keys (qdom rest))) (map a rest)) * (matrix R' g a b * psi b))).
    2:{ intros b. rewrite (@matrix_split Q R') by auto. rewrite keys_qdom. fold rest. ring. }
    rewrite esum_pin_list.
    - rewrite keys_qdom.
      assert (E : all_in (qdom rest) (map a rest) = true).
      { transitivity (all_in (qdom rest) (map a (keys (qdom rest)))); [rewrite keys_qdom; auto|].
        apply all_in_map. intros q ws Iq. unfold qdom in Iq. apply in_map_iff in Iq as [x [E Ix]]. injection E as <- <-.
        unfold rest in Ix. apply filter_In in Ix as [Ix _]. specialize (B _ Ix). simpl; lia. }
      rewrite E. cbn [kdelta].
      rewrite (@esum_start_dep _ _ _ _ Q _ _ a (@matrix_depends R' Q g a psi IQ I2 D)); [ring|].
      intros q Iq Nq. rewrite keys_qdom in Nq. rewrite upds_self; auto; [apply List.NoDup_filter; auto|].
      unfold rest. apply filter_In. split; auto. apply negb_true_iff, mem_false. auto.
    - rewrite keys_app, !keys_qdom. apply (Permutation_NoDup P); auto.
    - intros q ws Iq. unfold qdom in Iq. apply in_map_iff in Iq as [x [E Ix]]. injection E as <- <-.
      repeat constructor; simpl; intuition discriminate.
  Qed.

  Lemma evolve_ext Q (g : act S) psi psi' e : (forall b, psi b = psi' b) -> evolve Q g psi e = evolve Q g psi' e.
  Proof. intros E. unfold evolve. apply esum_ext_all. intros b. rewrite E. auto. Qed.
  Lemma run_ext Q (gs : list (act S)) : forall psi psi' e, (forall b, psi b = psi' b) -> run Q gs psi e = run Q gs psi' e.
  Proof.
    induction gs as [|g gs IH]; intros psi psi' e E; [apply E|]. unfold run in *. cbn [fold_left]. apply IH. intros b. apply evolve_ext; auto.
  Qed.
  Lemma forallb_ext_in' {X} (p p' : X -> bool) l : (forall x, In x l -> p x = p' x) -> forallb p l = forallb p' l.
  Proof. induction l as [|x l IH]; intros H; simpl; auto. rewrite (H x), IH; simpl; auto. intros y Iy; apply H; simpl; auto. Qed.
  Lemma basis_ext Q (x y e : env) : (forall q, In q Q -> x q = y q) -> basis (S := S) Q x e = basis Q y e.
  Proof. intros E. unfold basis. f_equal. apply forallb_ext_in'. intros q Iq. rewrite (E q Iq). auto. Qed.

  (** the same operation on other wires *)
  Definition rename (f : name -> name) (g : act S) : act S := Act (map f (on g)) (words g) (amp g).

  Section Rename.
    Context (f : name -> name) (R' : list name).
    Hypothesis Inj : forall x y, In x R' -> In y R' -> f x = f y -> x = y.

    Lemma get_rename {V} (l : list name) (ws : list V) q : incl l R' -> In q R' ->
      get (f q) (combine (map f l) ws) = get q (combine l ws).
    Proof.
      revert ws; induction l as [|x l IH]; intros [|w ws] I Iq; simpl; auto.
      destruct (eqb_spec q x) as [->|N].
      - rewrite eqb_refl. auto.
      - destruct (eqb_spec (f q) (f x)) as [E|_].
        + exfalso. apply N, Inj; auto. apply I; simpl; auto.
        + apply IH; auto. intros y Iy; apply I; simpl; auto.
    Qed.
    Lemma word_at_rename g q : incl (on g) R' -> In q R' -> word_at (rename f g) (f q) = word_at g q.
    Proof. intros I Iq. unfold word_at. cbn [rename on words]. rewrite get_rename; auto. Qed.
    Lemma filter_map {X Y} (h : X -> Y) p l : filter p (map h l) = map h (filter (fun x => p (h x)) l).
    Proof. induction l as [|x l IH]; simpl; auto. destruct (p (h x)); simpl; rewrite IH; auto. Qed.
    Lemma ins_rename g : incl (on g) R' -> act_ins (rename f g) = map f (act_ins g).
    Proof.
      intros I. unfold act_ins at 1. cbn [rename on]. rewrite filter_map. f_equal. apply filter_ext_in. intros q Iq.
      change (starts_in (word_at (rename f g) (f q)) = starts_in (word_at g q)). rewrite word_at_rename; auto.
    Qed.
    Lemma outs_rename g : incl (on g) R' -> act_outs (rename f g) = map f (act_outs g).
    Proof.
      intros I. unfold act_outs at 1. cbn [rename on]. rewrite filter_map. f_equal. apply filter_ext_in. intros q Iq.
      change (ends_out (word_at (rename f g) (f q)) = ends_out (word_at g q)). rewrite word_at_rename; auto.
    Qed.
    Lemma matrix_rename g a b : incl (on g) R' ->
      matrix (map f R') (rename f g) a b = matrix R' g (fun q => a (f q)) (fun q => b (f q)).
    Proof.
      intros I. unfold matrix. rewrite ins_rename, outs_rename, !map_map by auto. f_equal. f_equal.
      assert (H : forall l, incl l R' -> forallb (fun q => wire_ok (word_at (rename f g) q) (b q) (a q)) (map f l) =
                  forallb (fun q => wire_ok (word_at g q) (b (f q)) (a (f q))) l).
      { induction l as [|q l IH]; intros Il; cbn [map forallb]; auto. rewrite IH by (intros y Iy; apply Il; simpl; auto).
        rewrite word_at_rename; auto. apply Il; simpl; auto. }
      apply H. apply incl_refl.
    Qed.
    Lemma NoDup_rename : NoDup R' -> NoDup (map f R').
    Proof.
      clear - Inj. revert Inj. induction R' as [|x l IH]; intros Inj N; simpl; constructor; inversion N; subst.
      - intros I. apply in_map_iff in I as (y & E & I). assert (y = x) by (apply Inj; simpl; auto). congruence.
      - apply IH; auto. intros y z Iy Iz. apply Inj; simpl; auto.
    Qed.

    Context (Q : list name).
    Hypothesis NR : NoDup R'.
    Hypothesis NQ : NoDup Q.
    Hypothesis IQ : incl (map f R') Q.

    Lemma run_place gs : Forall (fun g => incl (on g) R') gs -> forall psi a, depends_on (S := S) Q psi -> (forall q, In q Q -> a q < 2)%nat ->
      run Q (map (rename f) gs) psi a =
      esum (qdom (map f R')) (fun b => run R' gs (basis R' (fun q => b (f q))) (fun q => a (f q)) * psi b) a.
    Proof.
      induction gs as [|g gs IH] using rev_ind; intros F psi a D B.
      - cbn [map run fold_left].
        rewrite (@esum_ext_all _ _ _ _ _ (fun b => kdelta (eqb (map b (keys (qdom (map f R')))) (map a (map f R'))) * psi b)).
        2:{ intros b. rewrite keys_qdom. f_equal. unfold basis. f_equal. rewrite !map_map.
            rewrite (eqb_map (fun q => b (f q)) (fun q => a (f q)) R'). clear. induction R' as [|q l IH]; auto. cbn [forallb]. rewrite IH, Nat.eqb_sym. auto. }
        rewrite <- (app_nil_r (qdom (map f R'))) at 1. rewrite esum_pin_list.
        + rewrite keys_qdom.
          assert (E : all_in (qdom (map f R')) (map a (map f R')) = true).
          { transitivity (all_in (qdom (map f R')) (map a (keys (qdom (map f R'))))); [rewrite keys_qdom; auto|].
            apply all_in_map. intros q ws Iq. unfold qdom in Iq. apply in_map_iff in Iq as [x [E Ix]]. injection E as <- <-.
            specialize (B _ (IQ _ Ix)). simpl; lia. }
          rewrite E. cbn [kdelta esum]. transitivity (psi a); auto. transitivity (psi (upds a (map f R') (map a (map f R')))); [|ring].
          apply D. intros q Iq. destruct (mem q (map f R')) eqn:M; [apply mem_In in M; rewrite upds_self; auto; apply NoDup_rename; auto|].
          apply mem_false in M. rewrite upds_notin; auto.
        + rewrite app_nil_r, keys_qdom. apply NoDup_rename; auto.
        + intros q ws Iq. unfold qdom in Iq. apply in_map_iff in Iq as [x [E Ix]]. injection E as <- <-.
          repeat constructor; simpl; intuition discriminate.
      - apply Forall_app in F as [F Fg]. inversion Fg as [|? ? Ig _]; subst. clear Fg.
        assert (Ig' : incl (on (rename f g)) (map f R')) by (cbn [rename on]; apply incl_map; auto).
        rewrite map_app, run_app. cbn [map]. unfold run at 1. cbn [fold_left].
        assert (Dr : depends_on (S := S) Q (run Q (map (rename f) gs) psi)).
        { apply run_depends; auto. intros h Ih. apply in_map_iff in Ih as (h0 & <- & Ih). rewrite Forall_forall in F. intros q Iq. apply IQ.
          apply (incl_map f (F h0 Ih)). exact Iq. }
        rewrite (@evolve_on Q (map f R')) by (auto; apply NoDup_rename; auto).
        rewrite (@esum_ext _ _ _ (qdom (map f R')) _ (fun b1 => esum (qdom (map f R')) (fun b => matrix R' g (fun q => a (f q)) (fun q => b1 (f q)) *
                     (run R' gs (basis R' (fun q => b (f q))) (fun q => b1 (f q)) * psi b)) a)).
        2:{ rewrite keys_qdom. apply NoDup_rename; auto. }
        2:{ intros b1 [Rb1 Rb2]. rewrite matrix_rename by auto. rewrite IH; auto.
            - rewrite <- esum_scale. apply (@esum_start_dep _ _ _ _ Q).
              + intros s s' E. f_equal. f_equal; [|apply D; auto].
                apply run_ext. intros x. apply basis_ext. intros q Iq. apply E, IQ, in_map, Iq.
              + intros q Iq Nq. auto.
            - intros q Iq. destruct (mem q (map f R')) eqn:M; [apply mem_In in M|apply mem_false in M].
              + apply bits01, (Rb1 q). unfold qdom. apply in_map_iff. exists q; auto.
              + rewrite Rb2 by (rewrite keys_qdom; auto). auto. }
        transitivity (esum (qdom (map f R')) (fun b => esum (qdom (map f R')) (fun b1 => matrix R' g (fun q => a (f q)) (fun q => b1 (f q)) *
                     run R' gs (basis R' (fun q => b (f q))) (fun q => b1 (f q))) a * psi b) a).
        { rewrite esum_swap_env. apply esum_ext_all. intros b. rewrite (kmul_comm S (esum _ _ _) (psi b)), <- esum_scale.
          apply esum_ext_all. intros b1. ring. }
        apply esum_ext_all. intros b. f_equal. rewrite run_app. unfold run at 2. cbn [fold_left]. unfold evolve.
        assert (Dm : depends_on (S := S) R' (fun before => matrix R' g (fun q => a (f q)) before * run R' gs (basis R' (fun q => b (f q))) before)).
        { apply matrix_depends; auto; [apply incl_refl|]. apply run_depends; [rewrite Forall_forall in F; auto|].
          intros s s' E. unfold basis. f_equal. apply forallb_ext_in'. intros q Iq. rewrite (E q Iq). auto. }
        rewrite (@esum_start_dep _ _ _ _ R' _ env0 (fun q => a (f q)) Dm).
        2:{ intros q Iq Nq. rewrite keys_qdom in Nq. contradiction. }
        symmetry. replace (qdom (map f R')) with (relabel_dom f (qdom R')) by (unfold relabel_dom, qdom; rewrite !map_map; auto).
        apply (@esum_relabel S name name _ _ f R'); auto.
        rewrite keys_qdom. apply incl_refl.
    Qed.
  End Rename.

  (** every circuit has a sum that represents it *)
  Definition act_fits (R' : list name) (g : act S) : Prop := NoDup (on g) /\ incl (on g) R'.
  Lemma represents_exists R' gs : NoDup R' -> Forall (act_fits R') gs -> (forall q, In q R' -> alternating (history gs q)) ->
    exists d F D O, represents (S := S) R' gs d F D O /\
      forall x, In x (keys d) -> exists j q s, x = NT [NI (Z.of_nat j); q; NS s] /\ (j < length gs)%nat.
  Proof.
    intros NR. induction gs as [|g gs IH]; intros F A.
    - exists [], (fun _ => 1), (fun q => q), (fun q => q). split; [apply represents_nil|]. intros x [].
    - inversion F as [|? ? [Ng Ig] F']; subst.
      destruct IH as (d & F0 & D & O & Rp & K); auto.
      { intros q Iq. specialize (A q Iq). change (history (g :: gs) q) with (word_at g q ++ history gs q) in A.
        apply alternating_app_r in A. auto. }
      set (ni := fun q => NT [NI (Z.of_nat (length gs)); q; NS "i"]).
      set (no := fun q => NT [NI (Z.of_nat (length gs)); q; NS "o"]).
      do 4 eexists. split.
      + apply (@represents_cons S R' gs d F0 D O g ni no); auto.
        apply NoDup_app_iff. split; [apply (rep_nodup Rp)|]. split.
        * apply NoDup_app_iff. split; [|split].
          -- apply FinFun.Injective_map_NoDup; [intros x y E; injection E; auto|]. do 2 apply List.NoDup_filter. auto.
          -- apply FinFun.Injective_map_NoDup; [intros x y E; injection E; auto|]. apply List.NoDup_filter. auto.
          -- intros x I1 I2. apply in_map_iff in I1 as (y & <- & _). apply in_map_iff in I2 as (z & E & _). discriminate.
        * intros x I1 I2. destruct (K x I1) as (j & q & s & -> & L). apply in_app_iff in I2 as [I2|I2]; apply in_map_iff in I2 as (y & E & _);
            injection E as E _ _; lia.
      + intros x I. rewrite !keys_app, !in_app_iff, !keys_seg in I. destruct I as [I|[I|I]].
        * destruct (K x I) as (j & q & s & -> & L). exists j, q, s. split; auto. simpl. lia.
        * apply in_map_iff in I as (q & <- & _). exists (length gs), q, "o"%string. split; auto.
        * apply in_map_iff in I as (q & <- & _). exists (length gs), q, "i"%string. split; auto.
  Qed.

  (** between any two assignments, a circuit is its amplitude on its inputs and outputs *)
  Lemma run_kernel R' gs (a b : env) : NoDup R' -> Forall (act_fits R') gs -> (forall q, In q R' -> alternating (history gs q)) ->
    (forall q, In q R' -> a q < 2)%nat ->
    run R' gs (basis R' b) a =
    kdelta (forallb (fun q => wire_ok (history gs q) (b q) (a q)) R')
    * amplitude (S := S) R' gs (map a (wires_out R' gs)) (map b (wires_in R' gs)).
  Proof.
    intros NR F A Ba. destruct (represents_exists NR F A) as (d & F0 & D & O & Rp & _).
    assert (Db : forall x, depends_on (S := S) R' (basis R' x)).
    { intros x s s' E. unfold basis. f_equal. apply forallb_ext_in'. intros q Iq. rewrite (E q Iq). auto. }
    assert (No : NoDup (wires_out R' gs)) by (apply List.NoDup_filter; auto).
    assert (Ni : NoDup (wires_in R' gs)) by (apply List.NoDup_filter; auto).
    assert (P : forall L (e : env) q, NoDup L -> place L (map e L) q = if mem q L then e q else 0%nat).
    { intros L e q NL. unfold place. destruct (mem q L) eqn:M; [apply mem_In in M; apply upds_self; auto|apply mem_false in M; rewrite upds_notin; auto]. }
    set (a2 := place (wires_out R' gs) (map a (wires_out R' gs))).
    set (b2 := place (wires_in R' gs) (map b (wires_in R' gs))).
    assert (A2 : forall q, In q R' -> a2 q = if ends_out (history gs q) then a q else 0%nat).
    { intros q Iq. unfold a2. rewrite P by auto. destruct (ends_out (history gs q)) eqn:E.
      - replace (mem q (wires_out R' gs)) with true; auto. symmetry. apply mem_In. apply filter_In; auto.
      - replace (mem q (wires_out R' gs)) with false; auto. symmetry. apply mem_false. intros I. apply filter_In in I as [_ I]. congruence. }
    assert (B2 : forall q, In q R' -> b2 q = if starts_in (history gs q) then b q else 0%nat).
    { intros q Iq. unfold b2. rewrite P by auto. destruct (starts_in (history gs q)) eqn:E.
      - replace (mem q (wires_in R' gs)) with true; auto. symmetry. apply mem_In. apply filter_In; auto.
      - replace (mem q (wires_in R' gs)) with false; auto. symmetry. apply mem_false. intros I. apply filter_In in I as [_ I]. congruence. }
    unfold amplitude. fold a2 b2. rewrite (@rep_run _ _ _ _ _ _ _ Rp (basis R' b) a), (@rep_run _ _ _ _ _ _ _ Rp (basis R' b2) a2); auto.
    2:{ intros q Iq. rewrite A2 by auto. destruct (ends_out _); [auto|lia]. }
    assert (E2 : dead_ok (history gs) R' a2 = true).
    { apply forallb_forall. intros q Iq. apply after_ok_iff. intros _ E. rewrite A2, E by auto. auto. }
    rewrite E2. cbn [kdelta].
    destruct (forallb (fun q => wire_ok (history gs q) (b q) (a q)) R') eqn:W; cbn [kdelta].
    - rewrite forallb_forall in W.
      assert (E1 : dead_ok (history gs) R' a = true).
      { apply forallb_forall. intros q Iq. apply after_ok_iff. intros N E. specialize (W q Iq). unfold wire_ok in W.
        destruct (history gs q); [congruence|]. rewrite E in W. cbn [orb] in W. apply andb_true_iff in W as [_ W]. apply Nat.eqb_eq in W. auto. }
      rewrite E1. cbn [kdelta].
      match goal with |- 1 * ?x = 1 * (1 * ?y) => assert (X : x = y); [|rewrite X; ring] end.
      apply esum_ext_all. intros s. f_equal.
      + f_equal. unfold outs_ok. apply forallb_ext_in'. intros q Iq. rewrite A2 by auto. destruct (ends_out (history gs q)); auto.
      + f_equal. unfold basis. f_equal. apply forallb_ext_in'. intros q Iq. rewrite B2 by auto. specialize (W q Iq).
        unfold look, wire_ok in *. destruct (history gs q) as [|[] w] eqn:H; cbn [starts_in] in *.
        * rewrite A2, H by auto. rewrite Nat.eqb_sym. auto.
        * auto.
        * apply andb_true_iff in W as [W _]. cbn [orb] in W. apply Nat.eqb_eq in W. rewrite W. auto.
    - transitivity (0 : S); [|ring].
      assert (X : exists q, In q R' /\ wire_ok (history gs q) (b q) (a q) = false).
      { clear - W. induction R' as [|q l IH]; [discriminate|]. cbn [forallb] in W. destruct (wire_ok (history gs q) (b q) (a q)) eqn:E.
        - destruct IH as (q' & I & E'); auto. exists q'; simpl; auto.
        - exists q; simpl; auto. }
      destruct X as (q & Iq & X).
      destruct (dead_ok (history gs) R' a) eqn:E1; cbn [kdelta]; [|ring].
      rewrite (@esum_ext_all _ _ _ _ _ (fun _ => 0)); [rewrite esum_zero; ring|]. intros s.
      assert (Z : basis (S := S) R' b (look (history gs) D s a) = 0); [|rewrite Z; ring].
      unfold basis. match goal with |- kdelta ?x = _ => destruct x eqn:Y end; auto. exfalso. rewrite forallb_forall in Y. specialize (Y q Iq). apply Nat.eqb_eq in Y.
      unfold dead_ok in E1. rewrite forallb_forall in E1. specialize (E1 q Iq).
      unfold look, wire_ok in *. destruct (history gs q) as [|[] w] eqn:H; cbn [starts_in orb] in *.
      + rewrite Y, Nat.eqb_refl in X. discriminate.
      + unfold after_ok in E1. rewrite E1 in X. discriminate.
      + unfold after_ok in E1. rewrite E1 in X. rewrite <- Y in X. discriminate.
  Qed.

  (** the words agree in whether and how the wire is used *)
  Definition alike (w v : word) : Prop := is_nil w = is_nil v /\ starts_in w = starts_in v /\ ends_out w = ends_out v.
  Lemma wire_ok_alike w v x y : alike w v -> wire_ok w x y = wire_ok v x y.
  Proof.
    intros (H1 & H2 & H3). unfold wire_ok. destruct w, v; try discriminate; auto. rewrite H2, H3. auto.
  Qed.

  Lemma get_self (W : name -> word) (l : list name) q : In q l -> get q (combine l (map W l)) = Some (W q).
  Proof.
    induction l as [|x l IH]; [intros []|]. intros [E|I]; simpl.
    - subst. rewrite eqb_refl. auto.
    - destruct (eqb_spec q x) as [->|N]; auto.
  Qed.

  (** a circuit on other wires as one operation *)
  Theorem place_circuit f R' Q (gs : list (act S)) (W : name -> word) psi a :
    (forall x y, In x R' -> In y R' -> f x = f y -> x = y) -> NoDup R' -> NoDup Q -> incl (map f R') Q ->
    Forall (act_fits R') gs -> (forall q, In q R' -> alternating (history gs q)) ->
    (forall q, In q R' -> alike (W q) (history gs q)) ->
    depends_on (S := S) Q psi -> (forall q, In q Q -> a q < 2)%nat ->
    evolve Q (Act (map f R') (map W R') (amplitude R' gs)) psi a = run Q (map (rename f) gs) psi a.
  Proof.
    intros Inj NR NQ IQ F A Wo D B.
    assert (F' : Forall (fun g => incl (on g) R') gs) by (eapply Forall_impl; [|exact F]; intros g [_ I]; auto).
    rewrite (@run_place f R' Inj Q NR NQ IQ gs F' psi a D B).
    set (G := Act R' (map W R') (amplitude R' gs)).
    change (Act (map f R') (map W R') (amplitude R' gs)) with (rename f G).
    rewrite (@evolve_on Q (map f R')); auto; [|apply NoDup_rename; auto|apply incl_refl].
    assert (WG : forall q, In q R' -> word_at G q = W q) by (intros q Iq; unfold word_at; cbn [on words G]; rewrite get_self; auto).
    assert (EI : act_ins G = wires_in R' gs).
    { unfold act_ins, wires_in. cbn [on G]. apply filter_ext_in. intros q Iq. fold G. rewrite WG by auto. apply (Wo q Iq). }
    assert (EO : act_outs G = wires_out R' gs).
    { unfold act_outs, wires_out. cbn [on G]. apply filter_ext_in. intros q Iq. fold G. rewrite WG by auto. apply (Wo q Iq). }
    apply esum_ext_all. intros b. f_equal. rewrite (@matrix_rename f R' Inj) by apply incl_refl.
    rewrite run_kernel; auto.
    - unfold matrix. rewrite EI, EO. cbn [amp G]. f_equal. f_equal. apply forallb_ext_in'. intros q Iq. rewrite WG by auto. apply wire_ok_alike; auto.
    - intros q Iq. apply B, IQ, in_map, Iq.
  Qed.
End Flat.
