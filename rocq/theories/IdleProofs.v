(** * add_idle_noise fills every gap once *)
From Coq Require Import Reals Lia Sorting.Sorted.
From Verif Require Import Base Scalar NetSpec ModelArray ModelTN ModelVal ModelContract CircSpec ModelCircuit CircSem CircShape CircOp CircMain CircBuild Complex ModelGates ModelQec
  ModelIdle IdleSpec.
Set Implicit Arguments.

(** ** lives, echoes and gaps *)
Lemma snoc_inj {A} (a b : list A) x y : a ++ [x] = b ++ [y] -> a = b /\ x = y.
Proof. apply app_inj_tail. Qed.
Lemma snoc_nil {A} (a : list A) x : a ++ [x] <> [].
Proof. destruct a; discriminate. Qed.
Lemma echo_fun l m s : echo l m s -> forall m' s', echo l m' s' -> m = m' /\ s = s'.
Proof.
  induction 1 as [|l t k m s E IH H|l t k s E IH H1 H2|l t k m m1 E IH H1 H2|l t k m m1 s E IH H1 H2]; intros m' s' E'; inversion E' as [X|a ? ? ? ? Ea Ha X|a ? ? ? Ea Ha Hb X|a ? ? ? ? Ea Ha Hb X|a ? ? ? ? ? Ea Ha Hb X]; subst;
    try (exfalso; match goal with X : [] = _ |- _ => symmetry in X; apply snoc_nil in X; exact X | X : _ ++ [_] = [] |- _ => apply snoc_nil in X; exact X end);
    auto; try (apply snoc_inj in X as [-> X]; injection X as -> ->); try congruence;
    destruct (IH _ _ Ea) as [? ?]; subst; try rewrite Hb in *; try rewrite H2 in *; split; try congruence.
Qed.
Lemma gap_mono l x t0 t m s : gap l t0 t m s -> gap (l ++ [x]) t0 t m s.
Proof. intros (a & k0 & k & b & m' & -> & H). exists a, k0, k, (b ++ [x]), m'. split; [rewrite <- app_assoc; reflexivity|exact H]. Qed.
Lemma gap_snoc l t k t0 t1 m s : gap (l ++ [(t, k)]) t0 t1 m s <->
  gap l t0 t1 m s \/ (t1 = t /\ exists a k0 m', l = a ++ [(t0, k0)] /\ k_meas k0 = false /\ k_state k = false /\ (t0 < t)%Z /\ echo l m' s /\ m = (if k_nd k then Some t else m')).
Proof.
  split.
  - intros (a & k0 & k1 & b & m' & E & H). destruct b as [|y b _] using rev_ind.
    + right. replace (a ++ [(t0, k0); (t1, k1)]) with ((a ++ [(t0, k0)]) ++ [(t1, k1)]) in E by (rewrite <- app_assoc; reflexivity).
      apply snoc_inj in E as [-> E]. injection E as -> ->. split; auto. exists a, k0, m'. intuition.
    + left. replace (a ++ (t0, k0) :: (t1, k1) :: b ++ [y]) with ((a ++ (t0, k0) :: (t1, k1) :: b) ++ [y]) in E by (rewrite <- app_assoc; reflexivity).
      apply snoc_inj in E as [-> _]. exists a, k0, k1, b, m'. auto.
  - intros [G|(-> & a & k0 & m' & -> & H)]; [apply gap_mono; auto|].
    exists a, k0, k, [], m'. split; [rewrite <- app_assoc; reflexivity|exact H].
Qed.

(** ** one step *)
Section Run.
  Variable kind : op CK -> kinds.
  Variable unit : R.
  Variable params : qparams.
  Notation fill := (filler unit params).
  Definition knows (l : list (Z * kinds)) (cl : clock) : Prop :=
    echo l (time_last_meas cl) (time_start cl) /\ (time_start cl <> None -> time_last_meas cl <> None) /\
    (forall t0, timing cl = Some t0 <-> exists a k0, l = a ++ [(t0, k0)] /\ k_meas k0 = false).
  Lemma knows_new : knows [] (Clock None None None).
  Proof.
    split; [constructor|]. split; [intros H; exfalso; apply H; reflexivity|]. intros t0. split; [discriminate|]. intros (a & k0 & E & _). symmetry in E. apply snoc_nil in E. contradiction.
  Qed.
  Lemma knows_born start : knows (born start) (Clock start None None).
  Proof.
    destruct start as [s|]; [|apply knows_new]. split; [apply (@echo_other [] s (Kinds false false false false) None None); [constructor|reflexivity]|].
    split; [intros H; exfalso; apply H; reflexivity|]. intros t0. cbn. split.
    - intros X. injection X as <-. exists [], (Kinds false false false false). auto.
    - intros (a & k0 & E & _). destruct a as [|? [|? ?]]; try discriminate. injection E as <- _. reflexivity.
  Qed.
  Lemma step_ok q t k l cl : knows l cl -> exists e cl', idle_qubit unit params t k cl = Ok (e, cl') /\ knows (l ++ [(t, k)]) cl' /\
    match e with
    | Some (o, mid) => exists t0 m s, gap (l ++ [(t, k)]) t0 t m s /\ (exists a k0, l = a ++ [(t0, k0)]) /\ (t0 < t)%Z /\
        fill q t0 t m s = (NT [NI mid; NT [q]], Gate mid [q] o) /\ (exists d ts, o = IdleGate d params ts) /\
        (forall t0' t' m' s', gap (l ++ [(t, k)]) t0' t' m' s' -> gap l t0' t' m' s' \/ (t0' = t0 /\ t' = t /\ m' = m /\ s' = s))
    | None => forall t0' t' m' s', gap (l ++ [(t, k)]) t0' t' m' s' -> gap l t0' t' m' s'
    end.
  Proof.
    intros (Ec & Es & Et). unfold idle_qubit.
    set (last := if k_nd k then Some t else time_last_meas cl).
    assert (Kn : knows (l ++ [(t, k)]) match k_noisyh k, last with
      | true, Some _ => match time_start cl with None => Clock (if k_meas k then None else Some t) last (Some t) | Some _ => Clock (if k_meas k then None else Some t) None None end
      | _, _ => Clock (if k_meas k then None else Some t) last (time_start cl) end).
    { assert (Tm : forall t0, (if k_meas k then None else Some t) = Some t0 <-> exists a k0, l ++ [(t, k)] = a ++ [(t0, k0)] /\ k_meas k0 = false).
      { intros t0. split.
        - destruct (k_meas k) eqn:Em; [discriminate|]. intros X. injection X as <-. exists l, k. auto.
        - intros (a & k0 & E & Em). apply snoc_inj in E as [_ E]. injection E as <- <-. rewrite Em. auto. }
      destruct (k_noisyh k) eqn:Eh.
      - destruct last as [m|] eqn:El; [destruct (time_start cl) as [s|] eqn:Ets|].
        + split; [|split; [cbn; congruence|exact Tm]]. cbn. eapply echo_end; eauto.
        + split; [|split; [cbn; congruence|exact Tm]]. cbn. eapply echo_begin; eauto.
        + unfold last in El. destruct (k_nd k) eqn:En; [discriminate|].
          split; [|split; [cbn; intros X; apply Es in X; congruence|exact Tm]]. cbn. rewrite El in Ec. apply echo_never; auto.
      - split; [|split; [|exact Tm]]; cbn.
        + apply echo_other; auto.
        + intros X. apply Es in X. unfold last. destruct (k_nd k); congruence. }
    assert (Hl : time_start cl <> None -> last <> None) by (intros X; apply Es in X; unfold last; destruct (k_nd k); congruence).
    assert (Done : forall e : option (op CK * Z), exists cl', (match k_noisyh k, last with
      | true, Some _ => match time_start cl with None => Ok (e, Clock (if k_meas k then None else Some t) last (Some t)) | Some _ => Ok (e, Clock (if k_meas k then None else Some t) None None) end
      | _, _ => Ok (e, Clock (if k_meas k then None else Some t) last (time_start cl)) end) = Ok (e, cl') /\ knows (l ++ [(t, k)]) cl').
    { intros e. destruct (k_noisyh k), last, (time_start cl); eexists; split; try reflexivity; exact Kn. }
    destruct (timing cl) as [t0|] eqn:Ett.
    - destruct (proj1 (Et t0) eq_refl) as (a & k0 & El & Em).
      destruct (negb (k_state k) && (0 <? t - t0)%Z) eqn:Eg.
      + apply andb_prop in Eg as [G1 G2]. apply Z.ltb_lt in G2. apply Bool.negb_true_iff in G1.
        set (ts := match last, time_start cl with Some m, Some s => Some (Times (real unit (t0 - s)) (real unit (t - s)) (real unit (s - m))) | _, _ => None end).
        replace (match time_start cl with None => Ok None | Some s => match last with Some l0 => Ok (Some (Times (real unit (t0 - s)) (real unit (t - s)) (real unit (s - l0)))) | None => Err TypeError end end)
          with (Ok ts) by (unfold ts; destruct (time_start cl); [|destruct last; reflexivity]; destruct last; [reflexivity|exfalso; apply Hl; congruence]).
        cbn [bind]. destruct (Done (Some (IdleGate (real unit (t - t0)) params ts, ((t0 + t) / 2)%Z))) as (cl' & E & K).
        eexists _, cl'. split; [exact E|]. split; [exact K|]. exists t0, last, (time_start cl).
        split; [apply gap_snoc; right; split; auto; exists a, k0, (time_last_meas cl); repeat split; auto; lia|].
        split; [eauto|]. split; [lia|]. split; [reflexivity|]. split; [eauto|].
        intros t0' t' m' s' G. apply gap_snoc in G as [G|(-> & a' & k0' & m1 & El' & _ & _ & _ & E1 & ->)]; [auto|right].
        rewrite El in El'. apply snoc_inj in El' as [_ X]. injection X as -> ->. destruct (echo_fun Ec E1) as [<- <-]. auto.
      + cbn [bind]. destruct (Done None) as (cl' & E & K). exists None, cl'. split; [exact E|]. split; [exact K|].
        intros t0' t' m' s' G. apply gap_snoc in G as [G|(-> & a' & k0' & m1 & El' & _ & G1 & G2 & _)]; [auto|exfalso].
        rewrite El in El'. apply snoc_inj in El' as [_ X]. injection X as -> ->. rewrite G1 in Eg. cbn in Eg. apply Z.ltb_ge in Eg. lia.
    - cbn [bind]. destruct (Done None) as (cl' & E & K). exists None, cl'. split; [exact E|]. split; [exact K|].
      intros t0' t' m' s' G. apply gap_snoc in G as [G|(-> & a' & k0' & m1 & El' & G0 & _)]; [auto|exfalso].
      assert (X : None = Some t0') by (apply Et; eauto). discriminate.
  Qed.

  (** ** the loop, as a sequence of uses of qubits *)
  Notation ev := (name * (Z * kinds))%type.
  Fixpoint run (E : list ev) (cls : list (name * clock)) (c : circ (op CK)) : res (list (name * clock) * circ (op CK)) :=
    match E with
    | [] => Ok (cls, c)
    | (q, (t, k)) :: r =>
        match get q cls with
        | None => Err KeyError
        | Some cl =>
            do p <- idle_qubit unit params t k cl;
            do c <- match fst p with Some (o, m) => c_append o [q] (Some m) None c | None => Ok c end;
            run r (set q (snd p) cls) c
        end
    end.
  Definition events (l : circ (op CK)) : list ev := flat_map (fun p => map (fun q => (q, (g_time (snd p), kind (g_op (snd p))))) (g_qubits (snd p))) l.
  Lemma run_qubits t k qs : forall cls c, idle_qubits unit params t k qs cls c = run (map (fun q => (q, (t, k))) qs) cls c.
  Proof.
    induction qs as [|q r IH]; intros cls c; simpl; auto. destruct (get q cls) as [cl|]; auto. destruct (idle_qubit unit params t k cl) as [p|]; auto. cbn [bind].
    destruct (match fst p with Some (o, m) => c_append o [q] (Some m) None c | None => Ok c end); cbn [bind]; auto.
  Qed.
  Lemma run_app E F : forall cls c, run (E ++ F) cls c = (do p <- run E cls c; run F (fst p) (snd p)).
  Proof.
    induction E as [|[q [t k]] r IH]; intros cls c; simpl; auto. destruct (get q cls) as [cl|]; auto. destruct (idle_qubit unit params t k cl) as [p|]; auto. cbn [bind].
    destruct (match fst p with Some (o, m) => c_append o [q] (Some m) None c | None => Ok c end); cbn [bind]; auto.
  Qed.
  Lemma run_gates l : forall cls c, idle_gates kind unit params l cls c = run (events l) cls c.
  Proof.
    induction l as [|[n g] r IH]; intros cls c; simpl; auto. rewrite run_app, run_qubits. cbn [snd].
    destruct (run (map (fun q => (q, (g_time g, kind (g_op g)))) (g_qubits g)) cls c) as [p|]; cbn [bind]; auto.
  Qed.
  Definition uses (q : name) (E : list ev) : list (Z * kinds) := map snd (filter (fun e => eqb q (fst e)) E).
  Lemma uses_app q E F : uses q (E ++ F) = uses q E ++ uses q F.
  Proof. unfold uses. rewrite filter_app, map_app. auto. Qed.
  Lemma uses_In q E x : In x (uses q E) <-> In (q, x) E.
  Proof.
    unfold uses. rewrite in_map_iff. split.
    - intros ([q' y] & <- & I). apply filter_In in I as [I X]. apply eqb_true in X. cbn in X. subst q'. auto.
    - intros I. exists (q, x). split; auto. apply filter_In. split; auto. cbn. apply eqb_refl.
  Qed.
  Lemma uses_const q qs x : NoDup qs -> uses q (map (fun q => (q, x)) qs) = if mem q qs then [x] else [].
  Proof.
    unfold uses. induction 1 as [|a r I N IH]; simpl; auto. destruct (eqb_spec q a) as [->|D]; simpl; [|exact IH].
    rewrite IH. destruct (mem a r) eqn:M; auto. apply mem_In in M. contradiction.
  Qed.
  Lemma uses_life q l : (forall p, In p l -> NoDup (g_qubits (snd p))) -> uses q (events l) = life kind q l.
  Proof.
    induction l as [|p r IH]; intros H; auto. simpl. rewrite uses_app, uses_const, IH by (intros; apply H; simpl; auto). unfold life. simpl.
    destruct (mem q (g_qubits (snd p))); auto.
  Qed.
  Definition before (a b : ev) : Prop := (fst (snd a) <= fst (snd b))%Z.
  Lemma idle_append d ts q m c : ~ In (NT [NI m; NT [q]]) (keys c) ->
    c_append (IdleGate d params ts) [q] (Some m) None c = Ok (c ++ [(NT [NI m; NT [q]], Gate m [q] (IdleGate d params ts))]).
  Proof. intros N. unfold c_append, append. cbn. f_equal. apply set_fresh; auto. Qed.
  Definition mid (t0 t : Z) : Z := ((t0 + t) / 2)%Z.
  Lemma mid_bound t0 t : (t0 < t -> t0 <= mid t0 t < t)%Z.
  Proof. intros H. unfold mid. split; [apply Z.div_le_lower_bound; lia|apply Z.div_lt_upper_bound; lia]. Qed.
  Lemma gap_in l t0 t m s : gap l t0 t m s -> (exists k, In (t, k) l) /\ (t0 < t)%Z.
  Proof. intros (a & k0 & k & b & m' & -> & _ & _ & H & _). split; auto. exists k. apply in_app_iff. simpl. auto. Qed.
  Variable start : option Z.
  Definition since (q : name) (E : list ev) : list (Z * kinds) := born start ++ uses q E.
  Definition gaps (E : list ev) (x : name * gate (op CK)) : Prop := exists q t0 t m s, gap (since q E) t0 t m s /\ x = fill q t0 t m s.
  Lemma key_fill q t0 t m s : fst (fill q t0 t m s) = NT [NI (mid t0 t); NT [q]].
  Proof. reflexivity. Qed.

  Lemma since_app q E F : since q (E ++ F) = since q E ++ uses q F.
  Proof. unfold since. rewrite uses_app, app_assoc. auto. Qed.
  Lemma since_sorted q E : StronglySorted before E -> (forall s e, start = Some s -> In e E -> s <= fst (snd e))%Z ->
    StronglySorted (fun x y : Z * kinds => (fst x <= fst y)%Z) (since q E).
  Proof.
    intros So Hs. unfold since. apply sorted_app.
    - destruct start; repeat constructor.
    - unfold uses. clear Hs. induction So as [|x l S IHS F]; simpl; [constructor|]. destruct (eqb q (fst x)); simpl; auto. constructor; auto.
      apply Forall_forall. intros y Iy. apply in_map_iff in Iy as (z & <- & Iz). apply filter_In in Iz as [Iz _]. rewrite Forall_forall in F. apply (F z Iz).
    - intros a b Ia Ib. destruct start as [s|]; [|contradiction]. destruct Ia as [<-|[]]. cbn. apply uses_In in Ib. apply (Hs s (q, b)); auto.
  Qed.
  Lemma sorted_last l t0 k0 t2 k2 : StronglySorted (fun x y : Z * kinds => (fst x <= fst y)%Z) (l ++ [(t0, k0)]) -> In (t2, k2) (l ++ [(t0, k0)]) -> (t2 <= t0)%Z.
  Proof.
    induction l as [|x r IHr]; simpl; intros Ss I2.
    - destruct I2 as [X|[]]. injection X as -> ->. lia.
    - inversion Ss as [|? ? S1 F]; subst. destruct I2 as [->|I2]; auto. rewrite Forall_forall in F. apply (F (t0, k0)). apply in_app_iff. simpl. auto.
  Qed.
  Lemma keys_set_old {B} k (v : B) (l : list (name * B)) : get k l <> None -> keys (set k v l) = keys l.
  Proof.
    induction l as [|[a b] r IH]; intros H; [exfalso; apply H; reflexivity|]. simpl in *. destruct (eqb_spec k a) as [->|D]; simpl; auto. f_equal. auto.
  Qed.

  Lemma run_ok qs c : forall E, (forall e, In e E -> In (fst e) qs) -> StronglySorted before E -> (forall s e, start = Some s -> In e E -> s <= fst (snd e))%Z ->
    (forall q t0 t m s, gap (since q E) t0 t m s -> ~ In (NT [NI (mid t0 t); NT [q]]) (keys c)) ->
    exists cls es, run E (map (fun q => (q, Clock start None None)) qs) c = Ok (cls, c ++ es) /\ NoDup (keys es) /\
      (forall x, In x es <-> gaps E x) /\ (forall q, In q qs -> exists cl, get q cls = Some cl /\ knows (since q E) cl) /\ keys cls = qs.
  Proof.
    induction E as [|[q [t k]] E IH] using rev_ind; intros Hq So Hs Fr.
    - exists (map (fun q => (q, Clock start None None)) qs), []. split; [simpl; rewrite app_nil_r; auto|]. split; [constructor|]. split; [|split].
      + intros x. split; [intros []|]. intros (q & t0 & t & m & s & (a & k0 & k & b & m' & X & _) & _). exfalso. unfold since, uses in X. simpl in X. rewrite app_nil_r in X.
        destruct start; destruct a as [|? [|? ?]]; discriminate.
      + intros q I. exists (Clock start None None). split; [|unfold since, uses; simpl; rewrite app_nil_r; apply knows_born]. clear Hq So Fr. induction qs as [|a r IHr]; [contradiction|]. simpl.
        destruct (eqb_spec q a) as [->|D]; auto. destruct I as [->|I]; [congruence|auto].
      + unfold keys. rewrite map_map. simpl. apply map_id.
    - assert (So' : StronglySorted before E /\ forall e, In e E -> before e (q, (t, k))).
      { clear -So. induction E as [|x r IHr]; simpl in *; [split; [constructor|intros ? []]|]. inversion So as [|? ? S1 F]; subst. destruct (IHr S1) as [A B].
        rewrite Forall_forall in F. split; [constructor; auto; apply Forall_forall; intros y Iy; apply F, in_app_iff; auto|].
        intros e [<-|I]; auto. apply F, in_app_iff. simpl. auto. }
      destruct So' as [So' Le].
      assert (Hs' : forall s e, start = Some s -> In e E -> (s <= fst (snd e))%Z) by (intros s e Es I; apply Hs; auto; apply in_app_iff; auto).
      destruct IH as (cls & es & Er & Nk & Ch & Kn & Kc); auto.
      + intros e I. apply Hq, in_app_iff; auto.
      + intros q0 t0 t1 m s G. eapply Fr. rewrite since_app. unfold uses. simpl. destruct (eqb q0 q); simpl; [apply gap_mono|rewrite app_nil_r]; eauto.
      + assert (Iq : In q qs) by (apply (Hq (q, (t, k))), in_app_iff; simpl; auto).
        destruct (Kn q Iq) as (cl & Eg & K). destruct (step_ok q t k K) as (e & cl' & Es & K' & He).
        assert (Uq : since q (E ++ [(q, (t, k))]) = since q E ++ [(t, k)]) by (rewrite since_app; unfold uses; simpl; rewrite eqb_refl; auto).
        assert (Un : forall q0, q0 <> q -> since q0 (E ++ [(q, (t, k))]) = since q0 E).
        { intros q0 D. rewrite since_app. unfold uses. simpl. destruct (eqb_spec q0 q); [congruence|]. simpl. apply app_nil_r. }
        assert (Mono : forall x, gaps E x -> gaps (E ++ [(q, (t, k))]) x).
        { intros x (q0 & t0 & t1 & m & s & G & ->). exists q0, t0, t1, m, s. split; auto. destruct (eqb_spec q0 q) as [->|D]; [rewrite Uq; apply gap_mono; auto|rewrite Un; auto]. }
        assert (Knew : (forall q0, In q0 qs -> exists cl0, get q0 (set q cl' cls) = Some cl0 /\ knows (since q0 (E ++ [(q, (t, k))])) cl0) /\ keys (set q cl' cls) = qs).
        { split; [|rewrite keys_set_old; auto; congruence]. intros q0 I0. destruct (eqb_spec q0 q) as [->|D].
          - exists cl'. split; [apply get_set_eq|rewrite Uq; auto].
          - destruct (Kn q0 I0) as (cl0 & G0 & K0). exists cl0. split; [rewrite get_set_neq; auto|rewrite Un; auto]. }
        rewrite run_app, Er. cbn [bind fst snd run]. rewrite Eg, Es. cbn [bind fst snd]. destruct e as [[o md]|].
        * destruct He as (t0 & m & s & G & (a & k0 & El) & Lt & Fi & (d & ts & ->) & Only).
          assert (Emd : md = mid t0 t) by (pose proof (f_equal fst Fi) as X; rewrite key_fill in X; injection X as <-; reflexivity). subst md.
          assert (Fc : ~ In (NT [NI (mid t0 t); NT [q]]) (keys c)) by (eapply Fr; rewrite Uq; exact G).
          assert (Fe : ~ In (NT [NI (mid t0 t); NT [q]]) (keys es)).
          { intros I. apply in_map_iff in I as (x & Ex & Ix). apply Ch in Ix as (q1 & t1 & t2 & m1 & s1 & G1 & ->).
            rewrite key_fill in Ex. injection Ex as Em ->. destruct (gap_in G1) as [(k2 & I2) L2].
            assert (t2 <= t0)%Z.
            { pose proof (since_sorted q So' Hs') as Ss. rewrite El in Ss, I2. eapply sorted_last; eauto. }
            pose proof (mid_bound Lt). pose proof (mid_bound L2). lia. }
          rewrite idle_append by (unfold keys; rewrite map_app, in_app_iff; intros [I|I]; auto). cbn [bind].
          exists (set q cl' cls), (es ++ [fill q t0 t m s]). split; [rewrite Fi, app_assoc; reflexivity|]. split.
          -- unfold keys. rewrite map_app. simpl map. change (fst (fill q t0 t m s)) with (NT [NI (mid t0 t); NT [q]]).
             apply NoDup_snoc; auto.
          -- split; auto. intros x. rewrite in_app_iff. simpl. split.
             ++ intros [I|[<-|[]]]; [apply Mono, Ch; auto|]. exists q, t0, t, m, s. rewrite Uq. auto.
             ++ intros (q0 & t1 & t2 & m1 & s1 & G1 & ->). destruct (eqb_spec q0 q) as [->|D].
                ** rewrite Uq in G1. apply Only in G1 as [G1|(-> & -> & -> & ->)]; [left; apply Ch; exists q, t1, t2, m1, s1; auto|auto].
                ** rewrite Un in G1 by auto. left. apply Ch. exists q0, t1, t2, m1, s1. auto.
        * cbn [bind]. exists (set q cl' cls), es. split; [reflexivity|]. split; auto. split; auto. intros x. split.
          -- intros I. apply Mono, Ch; auto.
          -- intros (q0 & t1 & t2 & m1 & s1 & G1 & ->). apply Ch. exists q0, t1, t2, m1, s1. split; auto. destruct (eqb_spec q0 q) as [->|D].
             ++ rewrite Uq in G1. apply He; auto.
             ++ rewrite Un in G1 by auto. auto.
  Qed.

  (** the gates up to the end *)
  Lemma end_ok e (lf : name -> list (Z * kinds)) : forall cls c, NoDup (keys cls) -> (forall q cl, In (q, cl) cls -> knows (lf q) cl) ->
    (forall q t0, In q (keys cls) -> tail_gap (lf q) t0 e -> ~ In (NT [NI (mid t0 e); NT [q]]) (keys c)) ->
    exists es, idle_end unit params e cls c = Ok (c ++ es) /\ NoDup (keys es) /\
      (forall x, In x es <-> exists q t0, In q (keys cls) /\ tail_gap (lf q) t0 e /\ x = fill q t0 e None None).
  Proof.
    induction cls as [|[q cl] r IH]; intros c Nd Kn Fr.
    - exists []. simpl. rewrite app_nil_r. split; auto. split; [constructor|]. intros x. split; [intros []|]. intros (q & t0 & [] & _).
    - simpl in Nd. inversion Nd as [|? ? Nq Nr]; subst. destruct (Kn q cl (or_introl eq_refl)) as (_ & _ & Et).
      assert (Tg : forall t0, tail_gap (lf q) t0 e <-> timing cl = Some t0 /\ (t0 < e)%Z).
      { intros t0. rewrite Et. split; [intros (a & k0 & A & B & C); split; eauto|intros ((a & k0 & A & B) & C); exists a, k0; auto]. }
      assert (Go : forall c1, (forall q0 t0, In q0 (keys r) -> tail_gap (lf q0) t0 e -> ~ In (NT [NI (mid t0 e); NT [q0]]) (keys c1)) ->
        exists es, idle_end unit params e r c1 = Ok (c1 ++ es) /\ NoDup (keys es) /\ (forall x, In x es <-> exists q t0, In q (keys r) /\ tail_gap (lf q) t0 e /\ x = fill q t0 e None None)).
      { intros c1 F1. apply IH; auto. intros q0 cl0 I. apply Kn. simpl. auto. }
      cbn [idle_end]. destruct (timing cl) as [t0|] eqn:Ett; [destruct (t0 <? e)%Z eqn:El|].
      + apply Z.ltb_lt in El. assert (T0 : tail_gap (lf q) t0 e) by (apply Tg; auto).
        rewrite idle_append by (apply Fr; simpl; auto). cbn [bind].
        destruct (Go (c ++ [fill q t0 e None None])) as (es & Ee & Ne & Ce).
        { intros q0 t1 I0 G1. unfold keys. rewrite map_app, in_app_iff. intros [I|[I|[]]]; [revert I; apply Fr; simpl; auto|]. rewrite key_fill in I. injection I as _ ->. contradiction. }
        exists (fill q t0 e None None :: es). split; [exact (eq_trans Ee (f_equal Ok (eq_sym (app_assoc c [fill q t0 e None None] es))))|]. split.
        * simpl. constructor; auto. intros I. apply in_map_iff in I as (x & Ex & Ix). apply Ce in Ix as (q1 & t1 & I1 & _ & ->). rewrite key_fill in Ex. injection Ex as _ ->. contradiction.
        * intros x. simpl. rewrite Ce. split.
          -- intros [<-|(q1 & t1 & I1 & G1 & ->)]; [exists q, t0; auto|exists q1, t1; auto].
          -- intros (q1 & t1 & [<-|I1] & G1 & ->); [left|right; exists q1, t1; auto]. apply Tg in G1 as [X _]. injection X as ->. auto.
      + cbn [bind]. destruct (Go c) as (es & Ee & Ne & Ce); [intros; apply Fr; simpl; auto|]. exists es. split; auto. split; auto. intros x. rewrite Ce. simpl. split.
        * intros (q1 & t1 & I1 & G1 & ->). exists q1, t1; auto.
        * intros (q1 & t1 & [<-|I1] & G1 & ->); [exfalso|exists q1, t1; auto]. apply Tg in G1 as [X L]. injection X as ->. apply Z.ltb_ge in El. lia.
      + cbn [bind]. destruct (Go c) as (es & Ee & Ne & Ce); [intros; apply Fr; simpl; auto|]. exists es. split; auto. split; auto. intros x. rewrite Ce. simpl. split.
        * intros (q1 & t1 & I1 & G1 & ->). exists q1, t1; auto.
        * intros (q1 & t1 & [<-|I1] & G1 & ->); [exfalso|exists q1, t1; auto]. apply Tg in G1 as [X L]. discriminate.
  Qed.
End Run.
