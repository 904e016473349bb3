(** Circuits as sums over the values of wire segments: the sum grows by one operation at either end. *)
From Verif Require Import Base Scalar NetSpec Sums NetAlg CircSpec.
Set Implicit Arguments.

Lemma starts_ends_nil : starts_in [] = false /\ ends_out [] = false.
Proof. auto. Qed.
Lemma ends_out_app w v : v <> [] -> ends_out (w ++ v) = ends_out v.
Proof.
  intros N. unfold ends_out. induction w as [|a r IH]; auto.
  destruct v as [|b v]; [congruence|]. simpl app. destruct (r ++ b :: v) eqn:E; [destruct r; discriminate|].
  simpl. simpl in IH. exact IH.
Qed.
Lemma starts_in_app w v : w <> [] -> starts_in (w ++ v) = starts_in w.
Proof. destruct w; [congruence|]; auto. Qed.
Lemma alternating_tail a w : alternating (a :: w) -> alternating w.
Proof. destruct w; simpl; tauto. Qed.
Lemma alternating_app_r w v : alternating (w ++ v) -> alternating v.
Proof. induction w as [|a r IH]; auto. simpl app. intros A. apply IH. apply alternating_tail in A; auto. Qed.
Lemma alternating_app_l w v : alternating (w ++ v) -> alternating w.
Proof.
  induction w as [|a [|b r] IH]; intros H; [exact I|exact I|].
  change (a <> b /\ alternating ((b :: r) ++ v)) in H. destruct H as [N A].
  change (a <> b /\ alternating (b :: r)). split; auto.
Qed.
(** where two words meet, production meets consumption *)
Lemma alternating_meet w v : w <> [] -> v <> [] -> alternating (w ++ v) -> starts_in v = ends_out w.
Proof.
  intros Nw Nv. induction w as [|a [|b r] IH]; [congruence| |].
  - destruct v as [|b v]; [congruence|]. simpl. intros [N _]. destruct a, b; unfold ends_out; simpl; congruence.
  - intros A. change ((a :: b :: r) ++ v) with (a :: (b :: r) ++ v) in A. apply alternating_tail in A.
    rewrite IH; auto; congruence.
Qed.

Section Sum.
  Variable S : scalar.
  Notation env := (env (A := name)).
  Local Open Scope K_scope.
  Add Ring Kring : (kring S).

  Lemma esum_sim {X} (f g : X -> name) (vs : list nat) xs (F G : env -> S) s t :
    (forall bs, length bs = length xs -> Forall (fun b => In b vs) bs ->
                F (upds s (map f xs) bs) = G (upds t (map g xs) bs)) ->
    esum (map (fun x => (f x, vs)) xs) F s = esum (map (fun x => (g x, vs)) xs) G t.
  Proof.
    revert s t; induction xs as [|x r IH]; simpl; intros s t E.
    - apply (E []); auto.
    - apply sumf_ext. intros v Iv. apply IH. intros bs L FB. apply (E (v :: bs)); simpl; auto.
  Qed.

  Lemma keys_qdom Q : keys (qdom Q) = Q.
  Proof. unfold keys, qdom. rewrite map_map. simpl. apply map_id. Qed.
  Lemma qdom_app Q R : qdom (Q ++ R) = qdom Q ++ qdom R.
  Proof. apply map_app. Qed.

  Lemma filter_split {X} (p : X -> bool) l : Permutation l (filter (fun x => negb (p x)) l ++ filter p l).
  Proof.
    induction l as [|x r IH]; simpl; auto. destruct (p x); simpl.
    - eapply perm_trans; [apply perm_skip, IH|]. apply Permutation_middle.
    - apply perm_skip; auto.
  Qed.
  Lemma NoDup_filter {X} (p : X -> bool) l : NoDup l -> NoDup (filter p l).
  Proof. apply NoDup_filter. Qed.

  (** the wire before the operation, where it is not summed over *)
  Definition pre0 (g : act S) (a : env) : env :=
    fun q => match word_at g q with LO :: _ => 0%nat | _ => a q end.
  Definition after_ok (w : word) (x : nat) : bool :=
    match w with [] => true | _ => ends_out w || Nat.eqb x 0 end.

  Lemma word_at_on g q : word_at (S := S) g q <> [] -> In q (on g).
  Proof.
    unfold word_at. destruct (get q _) as [w|] eqn:G; [|congruence]. intros _.
    apply get_In in G. apply in_combine_l in G; auto.
  Qed.

  Lemma eqb_cons (x y : nat) l m : eqb (x :: l) (y :: m) = Nat.eqb x y && eqb l m.
  Proof. reflexivity. Qed.
  Lemma forallb_wire g (m a : env) Q :
    forallb (fun q => wire_ok (word_at g q) (m q) (a q)) Q =
    forallb (fun q => after_ok (word_at g q) (a q)) Q
    && eqb (map m (filter (fun q => negb (starts_in (word_at g q))) Q))
           (map (pre0 g a) (filter (fun q => negb (starts_in (word_at g q))) Q)).
  Proof.
    induction Q as [|q r IH]; auto. cbn [forallb filter]. rewrite IH. clear IH.
    set (X := forallb _ r). set (F := filter _ r).
    assert (P : pre0 g a q = match word_at g q with LO :: _ => 0%nat | _ => a q end) by reflexivity.
    destruct (word_at g q) as [|[] w]; cbn [wire_ok after_ok starts_in negb orb andb].
    - cbn [map]. rewrite eqb_cons, P. destruct (Nat.eqb (m q) (a q)), X; auto.
    - destruct (ends_out _ || _); auto.
    - cbn [map]. rewrite eqb_cons, P. destruct (Nat.eqb (m q) 0), X, (ends_out _ || _); auto.
  Qed.

  Lemma evolve_closed Q g psi a :
    NoDup Q -> NoDup (on g) -> incl (on g) Q -> depends_on Q psi -> (forall q, In q Q -> a q < 2)%nat ->
    evolve Q g psi a =
    kdelta (forallb (fun q => after_ok (word_at g q) (a q)) Q)
    * esum (qdom (act_ins g)) (fun m => amp g (map a (act_outs g)) (map m (act_ins g)) * psi m) (pre0 g a).
  Proof.
    intros NQ No I D B. unfold evolve.
    set (p := fun q => starts_in (word_at g q)).
    set (rest := filter (fun q => negb (p q)) Q).
    set (f := fun m => amp g (map a (act_outs g)) (map m (act_ins g)) * psi m).
    assert (Df : depends_on Q f).
    { intros s s' E. unfold f. f_equal.
      - f_equal. apply map_ext_in. intros q Iq. apply E, I. unfold act_ins in Iq. apply filter_In in Iq; tauto.
      - apply D; auto. }
    assert (Dm : depends_on Q (fun m => matrix Q g a m * psi m)).
    { intros s s' E. f_equal; [|apply D; auto]. unfold matrix. f_equal.
      - f_equal. clear -E. induction Q as [|q r IH]; simpl; auto. rewrite IH, (E q); simpl; auto.
        intros x Ix; apply E; simpl; auto.
      - f_equal. apply map_ext_in. intros q Iq. apply E, I. unfold act_ins in Iq. apply filter_In in Iq; tauto. }
    rewrite (@esum_perm _ _ _ (qdom Q) (qdom rest ++ qdom (filter p Q))).
    2:{ rewrite <- qdom_app. apply Permutation_map. apply filter_split. }
    2:{ rewrite keys_qdom; auto. }
    2:{ apply (depends_exten Dm). }
    rewrite (@esum_ext_all _ _ _ _ _ (fun m => kdelta (forallb (fun q => after_ok (word_at g q) (a q)) Q) *
                                  (kdelta (eqb (map m (keys (qdom rest))) (map (pre0 g a) rest)) * f m))).
    - rewrite esum_scale. f_equal. rewrite esum_pin_list.
      + rewrite keys_qdom.
        assert (E1 : all_in (qdom rest) (map (pre0 g a) rest) = true).
        { transitivity (all_in (qdom rest) (map (pre0 g a) (keys (qdom rest)))); [rewrite keys_qdom; auto|].
          apply all_in_map. intros q ws Iq. unfold qdom in Iq. apply in_map_iff in Iq as [x [E Ix]].
          injection E as <- <-. unfold pre0. unfold rest in Ix. apply filter_In in Ix as [Ix _].
          specialize (B _ Ix). destruct (word_at g x) as [|[] ?]; simpl; lia. }
        rewrite E1. simpl kdelta.
        rewrite (@esum_perm _ _ _ (qdom (filter p Q)) (qdom (act_ins g))).
        * rewrite (@esum_start_dep _ _ _ _ Q f _ (pre0 g a)); auto; [idtac|].
          { assert (M1 : forall x : S, 1 * x = x) by (intros; ring). rewrite M1. reflexivity. }
          intros q Iq Nq. rewrite keys_qdom in Nq.
          destruct (mem q rest) eqn:M; [apply mem_In in M|apply mem_false in M].
          -- apply upds_self; auto. apply NoDup_filter; auto.
          -- exfalso. unfold rest in M. rewrite filter_In in M.
             assert (P : p q = true) by (destruct (p q) eqn:P; auto; exfalso; apply M; auto).
             apply Nq. unfold act_ins. apply filter_In. split; auto. apply word_at_on. unfold p in P.
             destruct (word_at g q); [discriminate|congruence].
        * apply Permutation_map. apply NoDup_Permutation; try (apply NoDup_filter; auto).
          intros q. unfold act_ins. rewrite !filter_In. unfold p. split; intros [H1 H2]; split; auto.
          apply word_at_on. destruct (word_at g q); [discriminate|congruence].
        * rewrite keys_qdom. apply NoDup_filter; auto.
        * apply (depends_exten Df).
      + rewrite keys_app, !keys_qdom. apply (Permutation_NoDup (filter_split p Q)); auto.
      + intros q ws Iq. unfold qdom in Iq. apply in_map_iff in Iq as [x [E Ix]]. injection E as <- <-.
        repeat constructor; simpl; intuition discriminate.
    - intros m. rewrite keys_qdom. unfold f, matrix.
      rewrite forallb_wire. unfold rest, p. rewrite kdelta_andb. ring.
  Qed.

  Lemma evolve_depends Q (g : act S) (psi : env -> S) : incl (on g) Q -> depends_on (S := S) Q (evolve Q g psi).
  Proof.
    intros I a a' E. unfold evolve. apply esum_ext_all. intros m. f_equal. unfold matrix. f_equal.
    - f_equal. clear I. induction Q as [|q r IH]; simpl; auto. rewrite IH, (E q); simpl; auto.
      intros x Ix; apply E; simpl; auto.
    - f_equal. apply map_ext_in. intros q Iq. apply E, I. unfold act_outs in Iq. apply filter_In in Iq; tauto.
  Qed.
  Lemma run_depends Q (gs : list (act S)) (psi : env -> S) :
    (forall g, In g gs -> incl (on g) Q) -> depends_on Q psi -> depends_on (S := S) Q (run Q gs psi).
  Proof.
    revert psi; induction gs as [|g r IH]; simpl; intros psi I D; auto.
    apply IH; auto. apply evolve_depends; auto.
  Qed.
  Lemma run_app Q (gs hs : list (act S)) psi : run Q (gs ++ hs) psi = run Q hs (run Q gs psi).
  Proof. unfold run. apply fold_left_app. Qed.
  Lemma history_app gs hs q : history (S := S) (gs ++ hs) q = history gs q ++ history hs q.
  Proof. unfold history. rewrite map_app, concat_app; auto. Qed.
  Lemma history_on gs q : history (S := S) gs q <> [] -> exists g, In g gs /\ In q (on g).
  Proof.
    induction gs as [|g r IH]; simpl; [tauto|]. intros N. unfold history in N; simpl in N.
    destruct (word_at g q) eqn:W; [|exists g; split; auto; apply word_at_on; congruence].
    destruct IH as (h & Ih & Io); eauto.
  Qed.

  (** ** Sums that represent a circuit *)
  Definition is_nil (w : word) : bool := match w with [] => true | _ => false end.

  (** the assignment of the wires before the first operation, when the segments carry [s] and the wires carry [e]
      after the last one; [D q] is the segment that enters the first operation on [q] *)
  Definition look (W : name -> word) (D : name -> name) (s e : env) : env :=
    fun q => match W q with [] => e q | LI :: _ => s (D q) | LO :: _ => 0%nat end.
  Definition dead_ok (W : name -> word) (Q : list name) (e : env) : bool :=
    forallb (fun q => after_ok (W q) (e q)) Q.
  Definition outs_ok (W : name -> word) (O : name -> name) (Q : list name) (s e : env) : bool :=
    forallb (fun q => negb (ends_out (W q)) || Nat.eqb (s (O q)) (e q)) Q.

  Record represents (Q : list name) (gs : list (act S)) (d : list (name * list nat)) (F : env -> S)
         (D O : name -> name) : Prop := {
    rep_nodup : NoDup (keys d);
    rep_bits : forall a vs v, In (a, vs) d -> In v vs -> (v < 2)%nat;
    rep_F : depends_on (keys d) F;
    rep_D : forall q, In q Q -> starts_in (history gs q) = true -> In (D q) (keys d);
    rep_O : forall q, In q Q -> ends_out (history gs q) = true -> In (O q) (keys d);
    rep_run : forall psi e, depends_on Q psi -> (forall q, In q Q -> e q < 2)%nat ->
      run Q gs psi e =
      kdelta (dead_ok (history gs) Q e)
      * esum d (fun s => kdelta (outs_ok (history gs) O Q s e) * (F s * psi (look (history gs) D s e))) env0
  }.

  Lemma represents_nil Q D O : represents Q [] [] (fun _ => 1) D O.
  Proof.
    constructor.
    - constructor.
    - intros a vs v [].
    - intros s s' _; auto.
    - intros q _ E; discriminate.
    - intros q _ E; discriminate.
    - intros psi e H B. cbn [run fold_left esum].
      assert (E1 : dead_ok (history (S := S) []) Q e = true) by (unfold dead_ok; apply forallb_forall; intros; auto).
      assert (E2 : outs_ok (history (S := S) []) O Q env0 e = true) by (unfold outs_ok; apply forallb_forall; intros; auto).
      rewrite E1, E2. cbn [kdelta].
      assert (E3 : psi (look (history (S := S) []) D env0 e) = psi e) by (apply H; intros; reflexivity).
      rewrite E3. ring.
  Qed.

  Definition seg (f : name -> name) (qs : list name) : list (name * list nat) := map (fun q => (f q, [0; 1]%nat)) qs.
  Lemma keys_seg f qs : keys (seg f qs) = map f qs.
  Proof. unfold keys, seg. rewrite map_map. reflexivity. Qed.
  Lemma In_seg f qs a vs : In (a, vs) (seg f qs) -> vs = [0; 1]%nat.
  Proof. unfold seg. rewrite in_map_iff. intros (x & E & _). congruence. Qed.
  Lemma bits01 v : In v [0; 1]%nat -> (v < 2)%nat.
  Proof. simpl; lia. Qed.
  Lemma nodup01 : NoDup [0; 1]%nat.
  Proof. repeat constructor; simpl; intuition discriminate. Qed.

  Lemma upds_sim (f : name -> name) qs bs (s t : env) q :
    NoDup qs -> NoDup (map f qs) -> In q qs -> length bs = length qs ->
    upds s (map f qs) bs (f q) = upds t qs bs q.
  Proof.
    revert s t bs; induction qs as [|x r IH]; intros s t [|b bs] N1 N2 I L; simpl in *; try tauto; try discriminate.
    inversion N1; inversion N2; subst. destruct I as [->|I].
    - rewrite !upds_notin by auto. rewrite !upd_eq; auto.
    - apply IH; auto.
  Qed.

  Lemma all_in_seg f qs (e : env) :
    (forall q, In q qs -> e q < 2)%nat -> all_in (seg f qs) (map e qs) = true.
  Proof.
    induction qs as [|q r IH]; simpl; intros B; auto.
    rewrite IH by auto. specialize (B q (or_introl eq_refl)). destruct (e q) as [|[|]]; simpl; auto; lia.
  Qed.

  Lemma forallb_iff {X Y} (p : X -> bool) (r : Y -> bool) l m :
    ((forall x, In x l -> p x = true) <-> (forall y, In y m -> r y = true)) -> forallb p l = forallb r m.
  Proof.
    intros E. apply eq_true_iff_eq. rewrite !forallb_forall. exact E.
  Qed.
  Lemma eqb_map (f g : name -> nat) l : eqb (map f l) (map g l) = forallb (fun q => Nat.eqb (f q) (g q)) l.
  Proof. induction l as [|q r IH]; auto. cbn [map forallb]. rewrite eqb_cons, IH; auto. Qed.
  Lemma orb_impl a b : negb a || b = true <-> (a = true -> b = true).
  Proof. destruct a; simpl; intuition. Qed.

  Lemma act_ins_iff g q : In q (act_ins (S := S) g) <-> starts_in (word_at g q) = true.
  Proof.
    unfold act_ins. rewrite filter_In. split; [tauto|]. intros E; split; auto. apply word_at_on.
    destruct (word_at g q); [discriminate|congruence].
  Qed.
  Lemma act_outs_iff g q : In q (act_outs (S := S) g) <-> ends_out (word_at g q) = true.
  Proof.
    unfold act_outs. rewrite filter_In. split; [tauto|]. intros E; split; auto. apply word_at_on.
    destruct (word_at g q); [discriminate|congruence].
  Qed.
  Lemma after_ok_iff w x : after_ok w x = true <-> (w <> [] -> ends_out w = false -> x = 0%nat).
  Proof.
    unfold after_ok. destruct w; [intuition congruence|]. rewrite orb_true_iff, Nat.eqb_eq.
    destruct (ends_out (l :: w)); intuition congruence.
  Qed.

  Lemma mulA (a b c : S) : a * b * c = a * (b * c).
  Proof. ring. Qed.

  (** *** one operation more at the beginning *)
  Section Cons.
    Context (Q : list name) (gs : list (act S)) (d : list (name * list nat)) (F : env -> S) (D O : name -> name).
    Context (g : act S) (ni no : name -> name).
    Hypothesis R : represents Q gs d F D O.
    Hypothesis NQ : NoDup Q.
    Hypothesis No : NoDup (on g).
    Hypothesis I : incl (on g) Q.
    Hypothesis Alt : forall q, In q Q -> alternating (word_at g q ++ history gs q).
    Let newq := filter (fun q => is_nil (history gs q)) (act_outs g).
    Hypothesis ND : NoDup (keys d ++ map no newq ++ map ni (act_ins g)).
    Definition cons_outs : list name := map (fun q => if is_nil (history gs q) then no q else D q) (act_outs g).
    Definition cons_D (q : name) : name := if mem q (act_ins g) then ni q else D q.
    Definition cons_O (q : name) : name := if mem q newq then no q else O q.

    Lemma represents_cons :
      represents Q (g :: gs) (d ++ seg no newq ++ seg ni (act_ins g))
                 (fun s => F s * amp g (map s cons_outs) (map s (map ni (act_ins g)))) cons_D cons_O.
    Proof.
      destruct R as [R1 R2 R3 R4 R5 R6].
      assert (Hh : forall q, history (g :: gs) q = word_at g q ++ history gs q) by reflexivity.
      assert (InQ : forall q, In q (act_outs g) -> In q Q).
      { intros q Iq. apply I. unfold act_outs in Iq. apply filter_In in Iq; tauto. }
      assert (InQi : forall q, In q (act_ins g) -> In q Q).
      { intros q Iq. apply I. unfold act_ins in Iq. apply filter_In in Iq; tauto. }
      assert (Nins : NoDup (act_ins g)) by (apply NoDup_filter; auto).
      assert (Nouts : NoDup (act_outs g)) by (apply NoDup_filter; auto).
      apply NoDup_app_remove_l in ND as ND'.
      assert (Nno : NoDup (map no newq)) by (apply NoDup_app_remove_r in ND'; auto).
      assert (Nni : NoDup (map ni (act_ins g))) by (apply NoDup_app_remove_l in ND'; auto).
      assert (Dis : forall x, In x (keys d) -> ~ In x (map no newq) /\ ~ In x (map ni (act_ins g))).
      { intros x Ix. split; intros Iy; apply (proj1 (NoDup_app_iff _ _)) in ND as (_ & _ & X); apply (X x Ix); apply in_app_iff; auto. }
      assert (Dis2 : forall x, In x (map no newq) -> ~ In x (map ni (act_ins g))).
      { intros x Ix Iy. apply (proj1 (NoDup_app_iff _ _)) in ND' as (_ & _ & X); apply (X x Ix); auto. }
      assert (Hnew : forall q, In q newq <-> In q (act_outs g) /\ history gs q = []).
      { intros q. unfold newq. rewrite filter_In. destruct (history gs q); simpl; intuition congruence. }
      (* where a produced wire goes *)
      assert (Ho : forall q, In q (act_outs g) -> history gs q <> [] -> starts_in (history gs q) = true).
      { intros q Iq N. rewrite (@alternating_meet (word_at g q) (history gs q)); auto.
        - apply act_outs_iff; auto.
        - apply act_outs_iff in Iq. destruct (word_at g q); [discriminate|congruence]. }
      constructor.
      - rewrite !keys_app, !keys_seg; auto.
      - intros a vs v Ia Iv. apply in_app_iff in Ia as [Ia|Ia]; [eapply R2; eauto|].
        apply in_app_iff in Ia as [Ia|Ia]; apply In_seg in Ia; subst; apply bits01; auto.
      - intros s s' E. rewrite !keys_app, !keys_seg in E. f_equal.
        + apply R3. intros a Ia. apply E. apply in_app_iff; auto.
        + f_equal.
          * apply map_ext_in. intros x Ix. apply E. unfold cons_outs in Ix. apply in_map_iff in Ix as (q & <- & Iq).
            destruct (history gs q) eqn:Eh; simpl.
            -- apply in_app_iff; right. apply in_app_iff; left. apply in_map. apply Hnew; auto.
            -- apply in_app_iff; left. apply R4; auto. apply Ho; auto. congruence.
          * apply map_ext_in. intros x Ix. apply E. apply in_app_iff; right. apply in_app_iff; auto.
      - intros q Iq E. rewrite !keys_app, !keys_seg. unfold cons_D. destruct (mem q (act_ins g)) eqn:M.
        + apply mem_In in M. apply in_app_iff; right. apply in_app_iff; right. apply in_map; auto.
        + apply mem_false in M. apply in_app_iff; left. apply R4; auto. rewrite Hh in E.
          destruct (word_at g q) as [|a w] eqn:W; auto. exfalso. apply M, act_ins_iff. rewrite W.
          rewrite starts_in_app in E by congruence. auto.
      - intros q Iq E. rewrite !keys_app, !keys_seg. unfold cons_O. destruct (mem q newq) eqn:M.
        + apply mem_In in M. apply in_app_iff; right. apply in_app_iff; left. apply in_map; auto.
        + apply mem_false in M. apply in_app_iff; left. apply R5; auto. rewrite Hh in E.
          destruct (history gs q) as [|a w] eqn:W.
          * exfalso. apply M, Hnew. split; auto. apply act_outs_iff. rewrite app_nil_r in E. auto.
          * rewrite ends_out_app in E by congruence. auto.
      - intros psi e Dp Be.
        change (run Q (g :: gs) psi) with (run Q gs (evolve Q g psi)).
        rewrite R6; [|apply evolve_depends; auto|auto].
        rewrite esum_app.
        (* the new factor that only looks at e *)
        assert (Ed : kdelta (dead_ok (history (g :: gs)) Q e) =
                     kdelta (dead_ok (history gs) Q e) *
                     (kdelta (forallb (fun q => negb (is_nil (history gs q)) || after_ok (word_at g q) (e q)) Q) : S)).
        { rewrite <- kdelta_andb. f_equal. unfold dead_ok.
          apply eq_true_iff_eq. rewrite andb_true_iff, !forallb_forall. split.
          - intros H. split; intros q Iq; specialize (H q Iq); rewrite Hh in H; destruct (history gs q) as [|a w] eqn:W; auto.
            + rewrite after_ok_iff in H |- *. intros _ E. apply H; [destruct (word_at g q); discriminate|].
              rewrite ends_out_app by congruence; auto.
            + rewrite app_nil_r in H. simpl. auto.
          - intros [H1 H2] q Iq. specialize (H1 q Iq). specialize (H2 q Iq). rewrite Hh.
            destruct (history gs q) as [|a w] eqn:W.
            + rewrite app_nil_r. simpl in H2. auto.
            + rewrite after_ok_iff in H1 |- *. intros _ E. apply H1; [congruence|].
              rewrite ends_out_app in E by congruence; auto. }
        rewrite Ed.
        set (new_ok := forallb (fun q => negb (is_nil (history gs q)) || after_ok (word_at g q) (e q)) Q).
        transitivity (kdelta (dead_ok (history gs) Q e) * esum d (fun s => kdelta new_ok *
          esum (seg no newq ++ seg ni (act_ins g)) (fun s' => kdelta (outs_ok (history (g :: gs)) cons_O Q s' e) *
            (F s' * amp g (map s' cons_outs) (map s' (map ni (act_ins g))) * psi (look (history (g :: gs)) cons_D s' e))) s) env0).
        2:{ rewrite esum_scale, mulA. reflexivity. }
        f_equal. apply esum_ext; auto. intros s [Rs _].
        set (a := look (history gs) D s e).
        assert (Ba : forall q, In q Q -> (a q < 2)%nat).
        { intros q Iq. unfold a, look. specialize (R4 q Iq). destruct (history gs q) as [|[] w]; auto.
          specialize (R4 eq_refl). apply in_map_iff in R4 as ([x vs] & E & Ix). simpl in E; subst x.
          eapply R2; eauto. }
        rewrite evolve_closed; auto.
        assert (En : forallb (fun q => after_ok (word_at g q) (a q)) Q = new_ok).
        { unfold new_ok. apply forallb_iff. split; intros H q Iq; specialize (H q Iq).
          - unfold a, look in H. destruct (history gs q); auto.
          - unfold a, look. destruct (history gs q) as [|b w] eqn:W; auto.
            apply after_ok_iff. intros N E.
            assert (M : starts_in (history gs q) = ends_out (word_at g q)).
            { apply alternating_meet; auto; congruence. }
            rewrite W in M. rewrite E in M. destruct b; [discriminate|auto]. }
        rewrite En.
        transitivity (kdelta new_ok * esum (qdom (act_ins g)) (fun m => kdelta (outs_ok (history gs) O Q s e) *
           (F s * amp g (map a (act_outs g)) (map m (act_ins g)) * psi m)) (pre0 g a)).
        { transitivity (kdelta new_ok * ((kdelta (outs_ok (history gs) O Q s e) * F s) *
            esum (qdom (act_ins g)) (fun m => amp g (map a (act_outs g)) (map m (act_ins g)) * psi m) (pre0 g a))).
          { set (z := esum _ _ _). ring. }
          f_equal. rewrite <- esum_scale. apply esum_ext_all. intros m. ring. }
        f_equal.
        (* the sum over the new segments *)
        rewrite (@esum_ext_all _ _ _ (seg no newq ++ seg ni (act_ins g)) _ (fun s' => kdelta (eqb (map s' (keys (seg no newq))) (map e newq)) *
            (kdelta (outs_ok (history gs) O Q s' e) *
            (F s' * amp g (map s' cons_outs) (map s' (map ni (act_ins g))) * psi (look (history (g :: gs)) cons_D s' e))))).
        2:{ intros s'. assert (Eo : outs_ok (history (g :: gs)) cons_O Q s' e =
                       eqb (map s' (keys (seg no newq))) (map e newq) && outs_ok (history gs) O Q s' e).
            { rewrite keys_seg, map_map. rewrite eqb_map. unfold outs_ok.
              apply eq_true_iff_eq. rewrite andb_true_iff, !forallb_forall. split.
              - intros H. split.
                + intros q Iq. assert (Iq' := Iq). apply Hnew in Iq' as [Iq1 Eq].
                  specialize (H q (InQ q Iq1)). rewrite Hh, Eq, app_nil_r in H.
                  apply act_outs_iff in Iq1. rewrite Iq1 in H. simpl in H.
                  unfold cons_O in H. apply mem_In in Iq. rewrite Iq in H. auto.
                + intros q Iq. specialize (H q Iq). apply orb_impl. intros E.
                  rewrite orb_impl in H. rewrite Hh in H.
                  rewrite ends_out_app in H by (intros X; rewrite X in E; discriminate).
                  specialize (H E). unfold cons_O in H. destruct (mem q newq) eqn:M; auto.
                  apply mem_In in M. apply Hnew in M as [_ M]. rewrite M in E. discriminate.
              - intros [H1 H2] q Iq. apply orb_impl. intros E. rewrite Hh in E. unfold cons_O.
                destruct (history gs q) as [|b w] eqn:W.
                + rewrite app_nil_r in E. assert (M : In q newq) by (apply Hnew; split; auto; apply act_outs_iff; auto).
                  specialize (H1 q M). apply mem_In in M. rewrite M. auto.
                + specialize (H2 q Iq). rewrite orb_impl in H2. destruct (mem q newq) eqn:M.
                  * apply mem_In in M. apply Hnew in M as [_ M]. congruence.
                  * apply H2. rewrite W. rewrite ends_out_app in E by congruence. auto. }
            rewrite Eo, kdelta_andb. ring. }
        rewrite esum_pin_list.
        2:{ rewrite keys_app, !keys_seg; auto. }
        2:{ intros x ws Ix. apply In_seg in Ix; subst. apply nodup01. }
        rewrite all_in_seg.
        2:{ intros q Iq. apply Be, InQ. apply Hnew in Iq; tauto. }
        rewrite keys_seg.
        assert (M1 : forall x : S, kdelta true * x = x) by (intros; cbn [kdelta]; ring). rewrite M1. clear M1.
        unfold qdom, seg. apply (@esum_sim _ (fun q => q) ni). intros bs Lb _. rewrite map_id.
        set (s1 := upds s (map no newq) (map e newq)). set (s' := upds s1 (map ni (act_ins g)) bs).
        set (m := upds (pre0 g a) (act_ins g) bs).
        assert (Old : forall x, In x (keys d) -> s' x = s x).
        { intros x Ix. destruct (Dis x Ix). unfold s', s1. rewrite !upds_notin; auto. }
        assert (Eo : outs_ok (history gs) O Q s' e = outs_ok (history gs) O Q s e).
        { unfold outs_ok. apply forallb_iff. split; intros H q Iq; specialize (H q Iq);
          rewrite orb_impl in *; intros E; specialize (H E); specialize (R5 q Iq E); rewrite Old in *; auto. }
        rewrite Eo. f_equal. f_equal; [f_equal|].
        + apply R3. intros x Ix. symmetry; auto.
        + f_equal.
          * unfold cons_outs. rewrite map_map. apply map_ext_in. intros q Iq. unfold a, look.
            destruct (history gs q) as [|b w] eqn:W; simpl.
            -- assert (M : In q newq) by (apply Hnew; auto). unfold s'. rewrite upds_notin.
               2:{ apply Dis2. apply in_map; auto. }
               unfold s1. symmetry. rewrite (@upds_sim no newq (map e newq) s s q); auto.
               ++ apply upds_self; auto. apply NoDup_filter; auto.
               ++ apply NoDup_filter; auto.
               ++ rewrite map_length; auto.
            -- assert (E : starts_in (b :: w) = true) by (rewrite <- W; apply Ho; auto; congruence).
               destruct b; [|discriminate]. symmetry. apply Old. apply R4; auto. rewrite W; auto.
          * unfold m, s'. rewrite upds_map, upds_map; auto. rewrite map_length; auto.
        + apply Dp. intros q Iq. unfold m, look. destruct (mem q (act_ins g)) eqn:M.
          * assert (M' := M). apply mem_In in M. assert (E : starts_in (word_at g q) = true) by (apply act_ins_iff; auto).
            rewrite Hh. destruct (word_at g q) as [|[] w]; try discriminate. simpl app. cbv iota.
            unfold cons_D. rewrite M'. symmetry. apply upds_sim; auto.
          * assert (M' := M). apply mem_false in M. rewrite upds_notin by auto. unfold pre0.
            assert (E : starts_in (word_at g q) <> true) by (rewrite <- act_ins_iff; auto).
            rewrite Hh. destruct (word_at g q) as [|[] w]; simpl in E; try congruence; simpl app; cbv iota; auto.
            unfold a, look, cons_D. rewrite M'. specialize (R4 q Iq).
            destruct (history gs q) as [|[] w']; auto. symmetry. apply Old. auto.
    Qed.
  End Cons.

  Lemma esum_swap_env d1 d2 (f : env -> env -> S) s0 t0 :
    esum d1 (fun s => esum d2 (fun t => f s t) t0) s0 = esum d2 (fun t => esum d1 (fun s => f s t) s0) t0.
  Proof.
    revert s0; induction d1 as [|[a vs] r IH]; intros s0; simpl; auto.
    rewrite esum_sumf. apply sumf_ext. intros v _. apply IH.
  Qed.

  (** *** one operation more at the end *)
  Section Snoc.
    Context (Q : list name) (gs : list (act S)) (d : list (name * list nat)) (F : env -> S) (D O : name -> name).
    Context (g : act S) (ni no : name -> name).
    Hypothesis R : represents Q gs d F D O.
    Hypothesis NQ : NoDup Q.
    Hypothesis No : NoDup (on g).
    Hypothesis I : incl (on g) Q.
    Hypothesis Ig : forall h, In h gs -> incl (on h) Q.
    Hypothesis Alt : forall q, In q Q -> alternating (history gs q ++ word_at g q).
    Let newq := filter (fun q => is_nil (history gs q)) (act_ins g).
    Let oldq := filter (fun q => negb (is_nil (history gs q))) (act_ins g).
    Hypothesis ND : NoDup (keys d ++ map no (act_outs g) ++ map ni newq).
    Definition snoc_ins : list name := map (fun q => if is_nil (history gs q) then ni q else O q) (act_ins g).
    Definition snoc_D (q : name) : name := if mem q newq then ni q else D q.
    Definition snoc_O (q : name) : name := if mem q (act_outs g) then no q else O q.

    Lemma represents_snoc :
      represents Q (gs ++ [g]) (d ++ seg no (act_outs g) ++ seg ni newq)
                 (fun s => F s * amp g (map s (map no (act_outs g))) (map s snoc_ins)) snoc_D snoc_O.
    Proof.
      destruct R as [R1 R2 R3 R4 R5 R6].
      assert (Hh : forall q, history (gs ++ [g]) q = history gs q ++ word_at g q).
      { intros q. rewrite history_app. unfold history at 2. simpl. rewrite app_nil_r; auto. }
      assert (InQ : forall q, In q (act_outs g) -> In q Q).
      { intros q Iq. apply I. unfold act_outs in Iq. apply filter_In in Iq; tauto. }
      assert (InQi : forall q, In q (act_ins g) -> In q Q).
      { intros q Iq. apply I. unfold act_ins in Iq. apply filter_In in Iq; tauto. }
      assert (Nins : NoDup (act_ins g)) by (apply NoDup_filter; auto).
      assert (Nouts : NoDup (act_outs g)) by (apply NoDup_filter; auto).
      assert (Nnew : NoDup newq) by (apply NoDup_filter; auto).
      assert (Nold : NoDup oldq) by (apply NoDup_filter; auto).
      apply NoDup_app_remove_l in ND as ND'.
      assert (Nno : NoDup (map no (act_outs g))) by (apply NoDup_app_remove_r in ND'; auto).
      assert (Nni : NoDup (map ni newq)) by (apply NoDup_app_remove_l in ND'; auto).
      assert (Dis : forall x, In x (keys d) -> ~ In x (map no (act_outs g)) /\ ~ In x (map ni newq)).
      { intros x Ix. split; intros Iy; apply (proj1 (NoDup_app_iff _ _)) in ND as (_ & _ & X); apply (X x Ix); apply in_app_iff; auto. }
      assert (Dis2 : forall x, In x (map no (act_outs g)) -> ~ In x (map ni newq)).
      { intros x Ix Iy. apply (proj1 (NoDup_app_iff _ _)) in ND' as (_ & _ & X); apply (X x Ix); auto. }
      assert (Hnew : forall q, In q newq <-> In q (act_ins g) /\ history gs q = []).
      { intros q. unfold newq. rewrite filter_In. destruct (history gs q); simpl; intuition congruence. }
      assert (Hold : forall q, In q oldq <-> In q (act_ins g) /\ history gs q <> []).
      { intros q. unfold oldq. rewrite filter_In. destruct (history gs q); simpl; intuition congruence. }
      (* where a consumed wire comes from *)
      assert (Hi : forall q, In q (act_ins g) -> history gs q <> [] -> ends_out (history gs q) = true).
      { intros q Iq N. rewrite <- (@alternating_meet (history gs q) (word_at g q)); auto.
        - apply act_ins_iff; auto.
        - apply act_ins_iff in Iq. destruct (word_at g q); [discriminate|congruence]. }
      assert (Hm : forall q, In q Q -> history gs q <> [] -> word_at g q <> [] ->
                             starts_in (word_at g q) = ends_out (history gs q)).
      { intros q Iq N1 N2. apply alternating_meet; auto. }
      constructor.
      - rewrite !keys_app, !keys_seg; auto.
      - intros a vs v Ia Iv. apply in_app_iff in Ia as [Ia|Ia]; [eapply R2; eauto|].
        apply in_app_iff in Ia as [Ia|Ia]; apply In_seg in Ia; subst; apply bits01; auto.
      - intros s s' E. rewrite !keys_app, !keys_seg in E. f_equal.
        + apply R3. intros a Ia. apply E. apply in_app_iff; auto.
        + f_equal.
          * apply map_ext_in. intros x Ix. apply E. apply in_app_iff; right. apply in_app_iff; auto.
          * apply map_ext_in. intros x Ix. apply E. unfold snoc_ins in Ix. apply in_map_iff in Ix as (q & <- & Iq).
            destruct (history gs q) eqn:Eh; simpl.
            -- apply in_app_iff; right. apply in_app_iff; right. apply in_map. apply Hnew; auto.
            -- apply in_app_iff; left. apply R5; auto. apply Hi; auto. congruence.
      - intros q Iq E. rewrite !keys_app, !keys_seg. unfold snoc_D. destruct (mem q newq) eqn:M.
        + apply mem_In in M. apply in_app_iff; right. apply in_app_iff; right. apply in_map; auto.
        + apply mem_false in M. apply in_app_iff; left. apply R4; auto. rewrite Hh in E.
          destruct (history gs q) as [|a w] eqn:W.
          * exfalso. apply M, Hnew. split; auto. apply act_ins_iff. auto.
          * rewrite starts_in_app in E by congruence. auto.
      - intros q Iq E. rewrite !keys_app, !keys_seg. unfold snoc_O. destruct (mem q (act_outs g)) eqn:M.
        + apply mem_In in M. apply in_app_iff; right. apply in_app_iff; left. apply in_map; auto.
        + apply mem_false in M. apply in_app_iff; left. apply R5; auto. rewrite Hh in E.
          destruct (word_at g q) as [|a w] eqn:W.
          * rewrite app_nil_r in E. auto.
          * exfalso. apply M, act_outs_iff. rewrite W. rewrite ends_out_app in E by congruence. auto.
      - intros psi e Dp Be.
        rewrite run_app. change (run Q [g] (run Q gs psi)) with (evolve Q g (run Q gs psi)).
        rewrite evolve_closed; auto; [|apply run_depends; auto].
        rewrite esum_app.
        set (base := pre0 g e).
        assert (Bb : forall q, In q Q -> (base q < 2)%nat).
        { intros q Iq. unfold base, pre0. destruct (word_at g q) as [|[]]; auto. }
        (* unfold the sum of the earlier operations and exchange the sums *)
        transitivity (kdelta (forallb (fun q => after_ok (word_at g q) (e q)) Q) *
          esum d (fun s => esum (qdom (act_ins g)) (fun m => amp g (map e (act_outs g)) (map m (act_ins g)) *
             (kdelta (dead_ok (history gs) Q m) * (kdelta (outs_ok (history gs) O Q s m) *
               (F s * psi (look (history gs) D s m))))) base) env0).
        { f_equal. rewrite esum_swap_env. apply esum_ext; [rewrite keys_qdom; auto|].
          intros m [Rm Rn]. rewrite R6; auto.
          - rewrite !esum_scale. reflexivity.
          - intros q Iq. rewrite keys_qdom in Rn. destruct (mem q (act_ins g)) eqn:M.
            + apply mem_In in M. apply bits01. apply (Rm q). unfold qdom. apply in_map_iff. eauto.
            + apply mem_false in M. rewrite Rn; auto. }
        rewrite <- (@esum_scale _ _ _ d), <- (@esum_scale _ _ _ d).
        apply esum_ext; auto. intros s [Rs _].
        (* pin the new outgoing segments on the right *)
        rewrite (@esum_ext_all _ _ _ (seg no (act_outs g) ++ seg ni newq) _
           (fun s' => kdelta (eqb (map s' (keys (seg no (act_outs g)))) (map e (act_outs g))) *
            (kdelta (forallb (fun q => negb (is_nil (word_at g q)) || (negb (ends_out (history gs q)) || Nat.eqb (s' (O q)) (e q))) Q) *
            (F s' * amp g (map s' (map no (act_outs g))) (map s' snoc_ins) * psi (look (history (gs ++ [g])) snoc_D s' e))))).
        2:{ intros s'. assert (Eo : outs_ok (history (gs ++ [g])) snoc_O Q s' e =
                eqb (map s' (keys (seg no (act_outs g)))) (map e (act_outs g)) &&
                forallb (fun q => negb (is_nil (word_at g q)) || (negb (ends_out (history gs q)) || Nat.eqb (s' (O q)) (e q))) Q).
            { rewrite keys_seg, map_map. rewrite eqb_map. unfold outs_ok.
              apply eq_true_iff_eq. rewrite andb_true_iff, !forallb_forall. split.
              - intros H. split.
                + intros q Iq. specialize (H q (InQ q Iq)). rewrite Hh in H. unfold snoc_O in H.
                  assert (Iq' := Iq). apply mem_In in Iq'. rewrite Iq' in H. rewrite orb_impl in H. apply H.
                  apply act_outs_iff in Iq. rewrite ends_out_app; auto. intros X; rewrite X in Iq; discriminate.
                + intros q Iq. specialize (H q Iq). rewrite Hh in H. unfold snoc_O in H.
                  destruct (word_at g q) as [|b w] eqn:W; auto. simpl. rewrite app_nil_r in H.
                  destruct (mem q (act_outs g)) eqn:M; auto.
                  apply mem_In in M. apply act_outs_iff in M. rewrite W in M. discriminate.
              - intros [H1 H2] q Iq. rewrite Hh. unfold snoc_O. specialize (H2 q Iq). rewrite orb_impl. intros E.
                destruct (mem q (act_outs g)) eqn:M.
                + apply mem_In in M. auto.
                + apply mem_false in M. destruct (word_at g q) as [|b w] eqn:W.
                  * rewrite app_nil_r in E. rewrite E in H2. auto.
                  * exfalso. apply M, act_outs_iff. rewrite W. rewrite ends_out_app in E by congruence. auto. }
            rewrite Eo, kdelta_andb. ring. }
        rewrite esum_pin_list.
        2:{ rewrite keys_app, !keys_seg; auto. }
        2:{ intros x ws Ix. apply In_seg in Ix; subst. apply nodup01. }
        rewrite all_in_seg by (intros; apply Be, InQ; auto). rewrite keys_seg.
        assert (M1 : forall x : S, kdelta true * x = x) by (intros; cbn [kdelta]; ring). rewrite M1.
        set (s1 := upds s (map no (act_outs g)) (map e (act_outs g))).
        (* pin the wires that come from earlier operations on the left *)
        set (G := fun m : env => amp g (map e (act_outs g)) (map m (act_ins g)) *
             (kdelta (dead_ok (history gs) Q m) * (kdelta (outs_ok (history gs) O Q s m) *
               (F s * psi (look (history gs) D s m))))).
        assert (DG : depends_on Q G).
        { intros m m' E. unfold G. f_equal; [f_equal; apply map_ext_in; auto|]. f_equal; [|f_equal; [|f_equal]].
          - f_equal. unfold dead_ok. apply forallb_iff. split; intros H q Iq; specialize (H q Iq); rewrite (E q) in *; auto.
          - f_equal. unfold outs_ok. apply forallb_iff. split; intros H q Iq; specialize (H q Iq); rewrite (E q) in *; auto.
          - apply Dp. intros q Iq. unfold look. rewrite (E q); auto. }
        rewrite (@esum_perm _ _ _ (qdom (act_ins g)) (qdom oldq ++ qdom newq)).
        2:{ rewrite <- qdom_app. apply Permutation_map.
            apply (filter_split (fun q => is_nil (history gs q)) (act_ins g)). }
        2:{ rewrite keys_qdom; auto. }
        2:{ apply (depends_exten DG). }
        set (pass := forallb (fun q => negb (is_nil (word_at g q)) || (negb (ends_out (history gs q)) || Nat.eqb (s (O q)) (e q))) Q).
        set (H0 := fun m : env => amp g (map e (act_outs g)) (map m (act_ins g)) * (F s * psi (look (history gs) D s m))).
        transitivity (esum (qdom oldq ++ qdom newq) (fun m => kdelta (eqb (map m (keys (qdom oldq))) (map (fun q => s (O q)) oldq)) *
             (kdelta (dead_ok (history (gs ++ [g])) Q e) * (kdelta pass * H0 m))) base).
        { rewrite <- esum_scale. apply esum_ext.
          { rewrite keys_app, !keys_qdom. apply (Permutation_NoDup (filter_split (fun q => is_nil (history gs q)) (act_ins g))); auto. }
          intros m [Rm Rn]. unfold G, H0. rewrite keys_app, !keys_qdom in Rn.
          assert (Mb : forall q, ~ In q (act_ins g) -> m q = base q).
          { intros q Nq. apply Rn. rewrite in_app_iff. unfold oldq, newq. rewrite !filter_In. tauto. }
          assert (E : forallb (fun q => after_ok (word_at g q) (e q)) Q && (dead_ok (history gs) Q m && outs_ok (history gs) O Q s m)
                      = eqb (map m (keys (qdom oldq))) (map (fun q => s (O q)) oldq) && (dead_ok (history (gs ++ [g])) Q e && pass)).
          { rewrite keys_qdom, eqb_map. unfold dead_ok, outs_ok, pass.
            apply eq_true_iff_eq. rewrite !andb_true_iff, !forallb_forall. split.
            - intros (H1 & H2 & H3). repeat split; intros q Iq.
              + apply Hold in Iq as [Iq N]. specialize (H3 q (InQi q Iq)). rewrite (Hi q Iq N) in H3. simpl in H3.
                rewrite Nat.eqb_sym; auto.
              + rewrite Hh. specialize (H1 q Iq). specialize (H2 q Iq).
                destruct (word_at g q) as [|b w] eqn:W.
                * rewrite app_nil_r. rewrite (Mb q) in H2 by (rewrite act_ins_iff, W; discriminate).
                  unfold base, pre0 in H2. rewrite W in H2. auto.
                * rewrite after_ok_iff in H1 |- *. intros _ E. apply H1; [congruence|]. rewrite ends_out_app in E by congruence. auto.
              + specialize (H3 q Iq). destruct (word_at g q) as [|b w] eqn:W; auto. simpl.
                rewrite (Mb q) in H3 by (rewrite act_ins_iff, W; discriminate).
                unfold base, pre0 in H3. rewrite W in H3. auto.
            - intros (H1 & H2 & H3). repeat split; intros q Iq.
              + specialize (H2 q Iq). rewrite Hh in H2. rewrite after_ok_iff in H2 |- *. intros N E.
                apply H2; [destruct (history gs q); [auto|discriminate]|]. rewrite ends_out_app; auto.
              + apply after_ok_iff. intros N E. assert (Nin : ~ In q (act_ins g)).
                { intros X. rewrite (Hi q X N) in E. discriminate. }
                rewrite (Mb q Nin). unfold base, pre0. specialize (H2 q Iq). rewrite Hh in H2.
                destruct (word_at g q) as [|[] w] eqn:W; auto.
                * rewrite app_nil_r in H2. rewrite after_ok_iff in H2. auto.
                * exfalso. apply Nin, act_ins_iff. rewrite W; auto.
              + apply orb_impl. intros E.
                assert (N : history gs q <> []) by (intros X; rewrite X in E; discriminate).
                destruct (word_at g q) as [|b w] eqn:W.
                * rewrite (Mb q) by (rewrite act_ins_iff, W; discriminate). unfold base, pre0. rewrite W.
                  specialize (H3 q Iq). rewrite W, E in H3. auto.
                * assert (Iq' : In q (act_ins g)).
                  { apply act_ins_iff. rewrite Hm; auto. congruence. }
                  rewrite Nat.eqb_sym. apply H1, Hold; auto. }
          apply (f_equal (kdelta (S := S))) in E. rewrite !kdelta_andb in E.
          set (k1 := kdelta (forallb _ Q)) in *. set (k2 := kdelta (dead_ok (history gs) Q m)) in *.
          set (k3 := kdelta (outs_ok (history gs) O Q s m)) in *.
          set (A := amp g _ _). set (B := F s * _).
          transitivity ((k1 * (k2 * k3)) * (A * B)); [ring|]. rewrite E. ring. }
        rewrite esum_pin_list.
        2:{ rewrite keys_app, !keys_qdom. apply (Permutation_NoDup (filter_split (fun q => is_nil (history gs q)) (act_ins g))); auto. }
        2:{ intros x ws Ix. apply (@In_seg (fun q => q)) in Ix; subst. apply nodup01. }
        assert (Ba : forall q, In q oldq -> (s (O q) < 2)%nat).
        { intros q Iq. apply Hold in Iq as [Iq N]. specialize (R5 q (InQi q Iq) (Hi q Iq N)).
          apply in_map_iff in R5 as ([x vs] & E & Ix). simpl in E; subst x. eapply R2; eauto. }
        change (qdom oldq) with (seg (fun q => q) oldq) at 1.
        rewrite (@all_in_seg (fun q => q) oldq (fun q => s (O q)) Ba), M1. rewrite keys_qdom.
        rewrite esum_scale. f_equal.
        unfold qdom, seg. apply (@esum_sim _ (fun q => q) ni). intros bs Lb _. rewrite map_id.
        set (s' := upds s1 (map ni newq) bs).
        set (b1 := upds base oldq (map (fun q => s (O q)) oldq)). set (m := upds b1 newq bs).
        assert (Old : forall x, In x (keys d) -> s' x = s x).
        { intros x Ix. destruct (Dis x Ix). unfold s', s1. rewrite !upds_notin; auto. }
        assert (Mnew : forall q, In q newq -> m q = s' (ni q)).
        { intros q Iq. unfold m, s'. symmetry. apply upds_sim; auto. }
        assert (Mold : forall q, In q oldq -> m q = s (O q)).
        { intros q Iq. unfold m. rewrite upds_notin.
          - unfold b1. apply (@upds_self _ _ oldq base (fun q => s (O q))); auto.
          - rewrite Hnew. apply Hold in Iq. tauto. }
        assert (Mrest : forall q, ~ In q (act_ins g) -> m q = base q).
        { intros q Nq. unfold m, b1. rewrite !upds_notin; auto; rewrite ?Hnew, ?Hold; tauto. }
        unfold H0. assert (Ep : forallb (fun q => negb (is_nil (word_at g q)) || (negb (ends_out (history gs q)) || Nat.eqb (s' (O q)) (e q))) Q = pass).
        { unfold pass. apply forallb_iff. split; intros H q Iq; specialize (H q Iq); rewrite !orb_impl in *; intros E1 E2;
          specialize (H E1 E2); specialize (R5 q Iq E2); rewrite Old in *; auto. }
        rewrite Ep. f_equal.
        assert (EF : F s' = F s) by (apply R3; intros; auto).
        rewrite EF.
        assert (E1 : map s' (map no (act_outs g)) = map e (act_outs g)).
        { transitivity (map s1 (map no (act_outs g))).
          - apply map_ext_in. intros x Ix. unfold s'. rewrite upds_notin; auto.
          - unfold s1. rewrite upds_map; auto. rewrite !map_length; auto. }
        assert (E2 : map s' snoc_ins = map m (act_ins g)).
        { unfold snoc_ins. rewrite map_map. apply map_ext_in. intros q Iq. destruct (history gs q) as [|b w] eqn:W; simpl.
          - symmetry. apply Mnew, Hnew; auto.
          - rewrite Mold by (apply Hold; split; auto; congruence). apply Old. apply R5; auto.
            apply Hi; auto. congruence. }
        assert (E3 : psi (look (history (gs ++ [g])) snoc_D s' e) = psi (look (history gs) D s m)).
        { apply Dp. intros q Iq. unfold look. rewrite Hh. unfold snoc_D.
          destruct (history gs q) as [|b w] eqn:W.
          - simpl app. destruct (word_at g q) as [|[] w'] eqn:W'.
            + rewrite Mrest by (rewrite act_ins_iff, W'; discriminate). unfold base, pre0. rewrite W'; auto.
            + assert (Iq' : In q newq) by (apply Hnew; split; auto; apply act_ins_iff; rewrite W'; auto).
              rewrite (Mnew q Iq'). apply mem_In in Iq'. rewrite Iq'. auto.
            + rewrite Mrest by (rewrite act_ins_iff, W'; discriminate). unfold base, pre0. rewrite W'; auto.
          - simpl app. destruct b; auto. destruct (mem q newq) eqn:M.
            + apply mem_In, Hnew in M as [_ M]. congruence.
            + apply Old. apply R4; auto. rewrite W; auto. }
        rewrite E1, E2, E3. ring.
    Qed.
  End Snoc.

  (** the sum may be rewritten *)
  Lemma represents_change Q gs d F d' F' D O :
    represents Q gs d F D O ->
    NoDup (keys d') -> (forall a vs v, In (a, vs) d' -> In v vs -> (v < 2)%nat) -> depends_on (keys d') F' ->
    (forall x, In x (keys d) -> In x (keys d')) ->
    (forall f, depends_on (keys d) f -> esum d (fun s => F s * f s) env0 = esum d' (fun s => F' s * f s) env0) ->
    represents Q gs d' F' D O.
  Proof.
    intros [R1 R2 R3 R4 R5 R6] N B DF I E. constructor; auto.
    intros psi e Dp Be. rewrite R6 by auto. f_equal.
    set (f := fun s => kdelta (outs_ok (history gs) O Q s e) * psi (look (history gs) D s e)).
    transitivity (esum d (fun s => F s * f s) env0).
    - apply esum_ext_all. intros s. unfold f. ring.
    - rewrite E.
      + apply esum_ext_all. intros s. unfold f. ring.
      + intros s s' Es. unfold f. f_equal.
        * f_equal. unfold outs_ok. apply forallb_iff. split; intros H q Iq; specialize (H q Iq); rewrite orb_impl in *;
          intros X; specialize (H X); specialize (R5 q Iq X); rewrite Es in *; auto.
        * apply Dp. intros q Iq. unfold look. specialize (R4 q Iq). destruct (history gs q) as [|[]]; auto.
  Qed.
End Sum.
