(** The network that clause_net builds: its nodes with their legs. *)
From Coq Require Import Reals.
From Verif Require Import Base Scalar NetSpec Sums NetAlg ModelArray ModelTN TNInv TNOps TNSpec TNMerge TNDelta TNValue
  TNValue2 TNExact TNHist ModelVal OpsProofs QaoaSpec ModelQaoa QaoaNet Complex.
Set Implicit Arguments.
Open Scope nat_scope.

Lemma NoDup_flat {X Y} (g : X -> list Y) l : NoDup l -> (forall x, In x l -> NoDup (g x)) ->
  (forall x y a, In x l -> In y l -> In a (g x) -> In a (g y) -> x = y) -> NoDup (concat (map g l)).
Proof.
  induction l as [|x r IH]; intros ND H D; cbn [map concat]; [constructor|]. inversion ND; subst.
  assert (NoDup (concat (map g r))).
  { apply IH; auto; [intros; apply H; simpl; auto|]. intros a b z Ia Ib; apply D; simpl; auto. }
  assert (A : NoDup (g x)) by (apply H; simpl; auto).
  assert (Dj : forall a, In a (g x) -> ~ In a (concat (map g r))).
  { intros a Ia I. apply in_concat in I as (m & Im & Iam). apply in_map_iff in Im as (y & <- & Iy).
    assert (x = y) by (eapply D; simpl; eauto). subst. tauto. }
  clear - A Dj H0. induction (g x) as [|a q IHq]; simpl; auto. inversion A; subst. constructor.
  - rewrite in_app_iff. intros [I|I]; [tauto|]. apply (Dj a); simpl; auto.
  - apply IHq; auto. intros b Ib; apply Dj; simpl; auto.
Qed.

Lemma NoDup_app' {X} (a b : list X) : NoDup a -> NoDup b -> (forall x, In x a -> In x b -> False) -> NoDup (a ++ b).
Proof.
  induction a as [|x r IH]; intros A B D; simpl; auto. inversion A; subst. constructor.
  - rewrite in_app_iff. intros [I|I]; [tauto|]. apply (D x); simpl; auto.
  - apply IH; auto. intros y I J. apply (D y); simpl; auto.
Qed.

Notation item := (name * list name)%type (only parsing).

Section Build.
  Local Existing Instance tval_payload.
  Notation net := (tn (tval CK)).
  Variable iter : list Z -> list Z.
  Variable c : csp.
  Hypothesis iter_perm : forall l, Permutation (iter l) l.
  Hypothesis valid : valid_csp c.

  Lemma iter_In q l : In q (iter l) <-> In q l.
  Proof. split; apply Permutation_in; [|symmetry]; apply iter_perm. Qed.
  Lemma iter_NoDup l : NoDup l -> NoDup (iter l).
  Proof. apply Permutation_NoDup. symmetry. apply iter_perm. Qed.

  (** the variables that enter the light cone in round [i], and those that are in it *)
  Definition grow (l : list Z) : list Z := minus (new_set c l) l.
  Fixpoint cone (cl : list Z) (i : nat) : list Z :=
    match i with
    | 0 => dedup cl
    | Datatypes.S i => cone cl i ++ grow (cone cl i)
    end.
  Definition fresh (cl : list Z) (i : nat) : list Z :=
    match i with 0 => dedup cl | Datatypes.S i => grow (cone cl i) end.

  Lemma minus_In q a b : In q (minus a b) <-> In q a /\ ~ In q b.
  Proof. unfold minus. rewrite filter_In, dedup_In, negb_true_iff, mem_false. tauto. Qed.
  Lemma minus_NoDup a b : NoDup (minus a b).
  Proof. apply NoDup_filter', dedup_NoDup. Qed.
  Lemma touches_In l cl : touches l cl = true <-> exists q, In q cl /\ In q l.
  Proof. unfold touches. rewrite existsb_exists. setoid_rewrite mem_In. reflexivity. Qed.
  Lemma grow_In q l : In q (grow l) <-> ~ In q l /\ exists cl, In cl (map fst c) /\ touches l cl = true /\ In q cl.
  Proof.
    unfold grow. rewrite minus_In. unfold new_set. rewrite in_concat. split.
    - intros [(cl & I & Iq) N]. apply filter_In in I as [I T]. split; auto. eauto.
    - intros [N (cl & I & T & Iq)]. split; auto. exists cl. rewrite filter_In. auto.
  Qed.
  Lemma cone_NoDup cl i : NoDup (cone cl i).
  Proof.
    induction i as [|i IH]; simpl; [apply dedup_NoDup|]. apply NoDup_app'; auto.
    - apply minus_NoDup.
    - intros q I J. apply grow_In in J. tauto.
  Qed.
  Lemma cone_step cl i q : In q (cone cl i) -> In q (cone cl (Datatypes.S i)).
  Proof. simpl. rewrite in_app_iff. auto. Qed.
  Lemma cone_mono cl i j q : i <= j -> In q (cone cl i) -> In q (cone cl j).
  Proof. induction 1; auto using cone_step. Qed.
  Lemma fresh_In cl i q : In q (fresh cl i) -> In q (cone cl i).
  Proof. destruct i; simpl; auto. rewrite in_app_iff. auto. Qed.
  (** the clauses that touch the cone in round [i] are in the cone of round [i+1] *)
  Lemma touched_cone cl i x q : In x (map fst c) -> touches (cone cl i) x = true -> In q x -> In q (cone cl (Datatypes.S i)).
  Proof.
    intros I T Iq. simpl. rewrite in_app_iff. destruct (in_dec Z.eq_dec q (cone cl i)); auto.
    right. apply grow_In. split; auto. eauto.
  Qed.

  (** ** the nodes *)
  Definition mixer_items (i : Z) (q : Z) : list item :=
    [(qname (2 * i + 1) q, [qname i q; qname (i + 1) q]); (qname (- 2 * i - 1) q, [qname (- i) q; qname (- i - 1) q])].
  Definition phase_items (l : list Z) (i : Z) (cl : list Z) : list item :=
    if touches l cl
    then [(cname (2 * i + 2) cl, map (qname (i + 1)) cl); (cname (- 2 * i - 2) cl, map (qname (- i - 1)) cl)]
    else [].
  Definition round_items (cl : list Z) (i : nat) : list item :=
    concat (map (mixer_items (Z.of_nat i)) (iter (cone cl i))) ++
    concat (map (phase_items (cone cl i) (Z.of_nat i)) (map fst c)).
  Definition all_items (cl : list Z) (p : nat) : list item := concat (map (round_items cl) (seq 0 p)).
  Definition turns (cl : list Z) (p : nat) : list (Z * nat) :=
    concat (map (fun i => map (fun q => (q, Datatypes.S i)) (iter (grow (cone cl i)))) (seq 0 p)).

  Definition add_item (z : item) : M (T := tval CK) unit := blank_node (fst z) (snd z).

  Lemma foreach_app {X} (f : X -> M (T := tval CK) unit) l m n :
    foreach f (l ++ m) n = (foreach f l ;; foreach f m) n.
  Proof.
    revert n; induction l as [|x r IH]; intros n; [reflexivity|].
    cbn [app foreach]. unfold mbind. destruct (f x n) as [n1 [[]|e]]; auto.
    rewrite IH. reflexivity.
  Qed.
  Lemma foreach_items {X} (f : X -> M (T := tval CK) unit) (g : X -> list item) l n :
    (forall x n, f x n = foreach add_item (g x) n) -> foreach f l n = foreach add_item (concat (map g l)) n.
  Proof.
    intros H. revert n; induction l as [|x r IH]; intros n; [reflexivity|].
    cbn [map concat]. rewrite foreach_app. cbn [foreach]. unfold mbind. rewrite <- H.
    destruct (f x n) as [n1 [[]|e]]; auto.
  Qed.

  Lemma add_items (l : list item) : forall n L, blank n L None -> NoDup (map fst (L ++ l)) ->
    (forall z, In z l -> ~ In NN (snd z)) ->
    exists n', foreach add_item l n = (n', Ok tt) /\ blank n' (L ++ l) None.
  Proof.
    induction l as [|[x ls] r IH]; intros n L B ND H.
    - exists n. rewrite app_nil_r. split; auto.
    - destruct (@add_blank _ _ x ls (VTensor None) n None L) as (n1 & E & B1); auto.
      + rewrite map_app in ND. apply NoDup_remove_2 in ND. intros I. apply ND, in_app_iff. auto.
      + apply (H (x, ls)); simpl; auto.
      + destruct (IH n1 (L ++ [(x, ls)]) B1) as (n2 & E2 & B2).
        * rewrite <- app_assoc. exact ND.
        * intros z Iz; apply H; simpl; auto.
        * exists n2. split; [|rewrite <- app_assoc in B2; exact B2].
          cbn [foreach]. rewrite (@mbind_eq _ _ _ _ _ n n1 tt); auto.
          unfold add_item, blank_node. cbn [fst snd]. rewrite (@mbind_eq _ _ _ _ _ n n1 x E). reflexivity.
  Qed.

  Lemma qname_inj i q j r : qname i q = qname j r -> i = j /\ q = r.
  Proof. intros E. inversion E; auto. Qed.
  Lemma cname_inj i x j y : cname i x = cname j y -> i = j /\ x = y.
  Proof.
    intros E. inversion E as [[E1 E2]]. split; auto. clear - E2. revert y E2.
    induction x as [|a r IH]; intros [|b s] E; simpl in E; try discriminate; auto. inversion E. f_equal; auto.
  Qed.
  Lemma qc_name i q j x : qname i q <> cname j x.
  Proof. discriminate. Qed.

  Lemma no_NN_q i (l : list Z) : ~ In NN (map (qname i) l).
  Proof. intros I. apply in_map_iff in I as (q & E & _). discriminate. Qed.
  Lemma round_no_NN cl i z : In z (round_items cl i) -> ~ In NN (snd z).
  Proof.
    unfold round_items. rewrite in_app_iff, !in_concat. intros [(m & Im & I)|(m & Im & I)]; apply in_map_iff in Im as (q & <- & _).
    - destruct I as [<-|[<-|[]]]; cbn [snd]; intros [Q|[Q|[]]]; discriminate.
    - unfold phase_items in I. destruct (touches (cone cl i) q); [|destruct I].
      destruct I as [<-|[<-|[]]]; cbn [snd]; apply no_NN_q.
  Qed.
  Lemma round_keys cl i x : In x (map fst (round_items cl i)) ->
    exists j, (Z.abs j = 2 * Z.of_nat i + 1 \/ Z.abs j = 2 * Z.of_nat i + 2)%Z /\ exists r, x = NT [NI j; r].
  Proof.
    intros I. apply in_map_iff in I as (z & <- & I). unfold round_items in I.
    rewrite in_app_iff, !in_concat in I. destruct I as [(m & Im & I)|(m & Im & I)]; apply in_map_iff in Im as (q & <- & _).
    - destruct I as [<-|[<-|[]]]; cbn [fst]; [exists (2 * Z.of_nat i + 1)%Z|exists (- 2 * Z.of_nat i - 1)%Z]; (split; [lia|]); eexists; reflexivity.
    - unfold phase_items in I. destruct (touches (cone cl i) q); [|destruct I].
      destruct I as [<-|[<-|[]]]; cbn [fst]; [exists (2 * Z.of_nat i + 2)%Z|exists (- 2 * Z.of_nat i - 2)%Z]; (split; [lia|]); eexists; reflexivity.
  Qed.
  Lemma round_NoDup cl i : NoDup (map fst (round_items cl i)).
  Proof.
    unfold round_items. assert (V : NoDup (map fst c)) by exact valid. revert V. generalize (map fst c). intros cs V.
    rewrite map_app, !concat_map, !map_map. apply NoDup_app'.
    - apply NoDup_flat.
      + apply iter_NoDup, cone_NoDup.
      + intros q _. cbn [mixer_items map fst]. constructor; [|constructor; auto; constructor].
        intros [E|[]]. apply qname_inj in E as [E _]. lia.
      + intros q r a _ _ [<-|[<-|[]]] [E|[E|[]]]; apply qname_inj in E as [E Eq]; auto.
    - apply NoDup_flat.
      + exact V.
      + intros x _. unfold phase_items. destruct (touches (cone cl i) x); [|constructor]. cbn [map fst].
        constructor; [|constructor; auto; constructor]. intros [E|[]]. apply cname_inj in E as [E _]. lia.
      + intros x y a _ _ I J. unfold phase_items in *. destruct (touches (cone cl i) x); [|destruct I].
        destruct (touches (cone cl i) y); [|destruct J].
        destruct I as [<-|[<-|[]]], J as [E|[E|[]]]; apply cname_inj in E as [E Eq]; auto.
    - intros a I J. apply in_concat in I as (m & Im & I), J as (m' & Im' & J).
      apply in_map_iff in Im as (q & <- & _), Im' as (x & <- & _).
      unfold phase_items in J. destruct (touches (cone cl i) x); [|destruct J].
      destruct I as [<-|[<-|[]]], J as [E|[E|[]]]; symmetry in E; revert E; apply qc_name.
  Qed.
  Lemma all_NoDup cl p : NoDup (map fst (all_items cl p)).
  Proof.
    unfold all_items. rewrite concat_map, map_map. apply NoDup_flat.
    - apply seq_NoDup.
    - intros i _. apply round_NoDup.
    - intros i j a _ _ I J. apply round_keys in I as (k & H & r & ->), J as (k' & H' & r' & E).
      inversion E; subst. lia.
  Qed.
  Lemma all_no_NN cl p z : In z (all_items cl p) -> ~ In NN (snd z).
  Proof.
    unfold all_items. rewrite in_concat. intros (m & Im & I). apply in_map_iff in Im as (i & <- & _).
    eapply round_no_NN; eauto.
  Qed.

  Lemma mixer_run i q n : mixer_nodes i q n = foreach add_item (mixer_items i q) n.
  Proof.
    unfold mixer_nodes, mixer_items. cbn [foreach]. unfold add_item at 1 2. cbn [fst snd]. unfold mbind.
    destruct (blank_node _ _ n) as [n1 [[]|e]]; auto. destruct (blank_node _ _ n1) as [n2 [[]|e]]; auto.
  Qed.
  Lemma phase_run l i x n : phase_nodes l i x n = foreach add_item (phase_items l i x) n.
  Proof.
    unfold phase_nodes, phase_items. destruct (touches l x); [|reflexivity].
    cbn [foreach]. unfold add_item at 1 2. cbn [fst snd]. unfold mbind.
    destruct (blank_node _ _ n) as [n1 [[]|e]]; auto. destruct (blank_node _ _ n1) as [n2 [[]|e]]; auto.
  Qed.

  Lemma layers_run cl : forall k i n T, blank n (all_items cl i) None ->
    exists n', layers iter c k i (cone cl i) T n =
      (n', Ok (cone cl (i + k), T ++ concat (map (fun i => map (fun q => (q, Datatypes.S i)) (iter (grow (cone cl i)))) (seq i k)))) /\
      blank n' (all_items cl (i + k)) None.
  Proof.
    induction k as [|k IH]; intros i n T B.
    - rewrite Nat.add_0_r. exists n. cbn [layers seq map concat]. rewrite app_nil_r. split; auto.
    - cbn [layers].
      assert (A : all_items cl (Datatypes.S i) = all_items cl i ++ round_items cl i).
      { unfold all_items. rewrite seq_S, map_app, concat_app. simpl. rewrite app_nil_r. reflexivity. }
      destruct (@add_items (round_items cl i) n (all_items cl i) B) as (n1 & E & B1).
      + rewrite <- A. apply all_NoDup.
      + intros z. apply round_no_NN.
      + rewrite <- A in B1. unfold round_items in E. rewrite foreach_app in E.
        apply mbind_ok in E as (n0 & [] & Ea & Eb).
        rewrite (@mbind_eq _ _ _ _ _ n n0 tt).
        2:{ rewrite (foreach_items (mixer_nodes (Z.of_nat i)) (mixer_items (Z.of_nat i))); [exact Ea|apply mixer_run]. }
        rewrite (@mbind_eq _ _ _ _ _ n0 n1 tt).
        2:{ rewrite (foreach_items (phase_nodes (cone cl i) (Z.of_nat i)) (phase_items (cone cl i) (Z.of_nat i))); [exact Eb|apply phase_run]. }
        cbv zeta. fold (grow (cone cl i)).
        destruct (IH (Datatypes.S i) n1 (T ++ map (fun q => (q, Datatypes.S i)) (iter (grow (cone cl i)))) B1) as (n2 & E2 & B2).
        exists n2. rewrite Nat.add_succ_r. cbn [seq map concat]. rewrite app_assoc. split; auto.
  Qed.

  (** ** merging the edges of the variables that entered later *)
  Definition merge_turn (t : Z * nat) (e : name) : name :=
    merge_label [qname (Z.of_nat (snd t)) (fst t); qname (- Z.of_nat (snd t)) (fst t)] (qname 0 (fst t)) e.
  Definition merge_turns (ts : list (Z * nat)) (e : name) : name := fold_left (fun e t => merge_turn t e) ts e.
  Definition relabel_items (f : name -> name) (L : list item) : list item := map (fun z => (fst z, map f (snd z))) L.

  Lemma merge_turn_q t j q : merge_turn t (qname j q) =
    if (q =? fst t)%Z && (Z.abs j =? Z.of_nat (snd t))%Z then qname 0 q else qname j q.
  Proof.
    unfold merge_turn, merge_label. destruct t as [r t]. cbn [fst snd].
    destruct (mem_spec (qname j q) [qname (Z.of_nat t) r; qname (- Z.of_nat t) r]) as [I|I].
    - destruct I as [I|[I|[]]]; apply qname_inj in I as [<- <-]; rewrite Z.eqb_refl.
      + replace (Z.abs (Z.of_nat t) =? Z.of_nat t)%Z with true by (symmetry; apply Z.eqb_eq; lia). reflexivity.
      + replace (Z.abs (- Z.of_nat t) =? Z.of_nat t)%Z with true by (symmetry; apply Z.eqb_eq; lia). reflexivity.
    - destruct (Z.eqb_spec q r) as [->|]; auto. destruct (Z.eqb_spec (Z.abs j) (Z.of_nat t)) as [E|]; auto.
      exfalso. apply I. cbn [In]. destruct (Z.abs_eq_or_opp j) as [Q|Q].
      + left. f_equal. f_equal. f_equal. lia.
      + right; left. unfold qname. do 2 f_equal. f_equal. lia.
  Qed.
  Lemma merge_turns_keep ts : forall j q, (forall t, In (q, t) ts -> Z.abs j <> Z.of_nat t) -> merge_turns ts (qname j q) = qname j q.
  Proof.
    induction ts as [|[r t] ts IH]; intros j q H; [reflexivity|]. unfold merge_turns. cbn [fold_left]. fold (merge_turns ts).
    rewrite merge_turn_q. cbn [fst snd]. destruct (Z.eqb_spec q r) as [->|].
    - destruct (Z.eqb_spec (Z.abs j) (Z.of_nat t)) as [E|].
      + exfalso. apply (H t); simpl; auto.
      + apply IH. intros; apply H; simpl; auto.
    - apply IH. intros; apply H; simpl; auto.
  Qed.
  Lemma merge_turns_hit ts : forall j q t, (forall q t, In (q, t) ts -> 0 < t) -> In (q, t) ts -> Z.abs j = Z.of_nat t -> merge_turns ts (qname j q) = qname 0 q.
  Proof.
    induction ts as [|[r u] ts IH]; intros j q t P I E; [destruct I|]. unfold merge_turns. cbn [fold_left]. fold (merge_turns ts).
    rewrite merge_turn_q. cbn [fst snd].
    assert (P' : forall q t, In (q, t) ts -> 0 < t) by (intros; eapply P; simpl; eauto).
    assert (K : merge_turns ts (qname 0 q) = qname 0 q).
    { apply merge_turns_keep. intros t' I'. apply P' in I'. lia. }
    destruct ((q =? r)%Z && (Z.abs j =? Z.of_nat u)%Z) eqn:Q; auto.
    destruct I as [I|I]; [|eapply IH; eauto]. inversion I; subst. rewrite Z.eqb_refl in Q. cbn [andb] in Q.
    apply Z.eqb_neq in Q. lia.
  Qed.

  Definition leg_of (L : list item) (e : name) : Prop := exists x ls, In (x, ls) L /\ In e ls.

  Lemma relabel_leg f L e : leg_of (relabel_items f L) e <-> exists e', leg_of L e' /\ e = f e'.
  Proof.
    unfold leg_of, relabel_items. split.
    - intros (x & ls & I & Ie). apply in_map_iff in I as ([y ks] & Q & I). cbn [fst snd] in Q. inversion Q; subst.
      apply in_map_iff in Ie as (e' & <- & Ie). eauto 6.
    - intros (e' & (x & ls & I & Ie) & ->). exists x, (map f ls). split; [|apply in_map; auto].
      apply (in_map (fun z => (fst z, map f (snd z)))) in I. exact I.
  Qed.

  Lemma merges_run ts : forall n L, blank n L None -> NoDup (map fst ts) -> (forall q t, In (q, t) ts -> 0 < t) ->
    (forall e, leg_of L e -> exists j q, e = qname j q) ->
    (forall q t, In (q, t) ts -> leg_of L (qname (Z.of_nat t) q) /\ leg_of L (qname (- Z.of_nat t) q) /\ ~ leg_of L (qname 0 q)) ->
    exists n', foreach (@close_turn) ts n = (n', Ok tt) /\ blank n' (relabel_items (merge_turns ts) L) None.
  Proof.
    induction ts as [|[q t] ts IH]; intros n L B ND P Q H.
    - exists n. split; auto. replace (relabel_items (merge_turns []) L) with L; auto.
      unfold relabel_items. rewrite <- (map_id L) at 1. apply map_ext. intros [x ls]. cbn [fst snd]. f_equal.
      symmetry. apply map_id.
    - inversion ND as [|? ? Nq ND']; subst. destruct (H q t) as (H1 & H2 & H3); [simpl; auto|].
      assert (Pt : 0 < t) by (apply (P q); simpl; auto).
      destruct (@merge_blank _ (qname (Z.of_nat t) q) (qname (- Z.of_nat t) q) (qname 0 q) n L B) as (n1 & E1 & B1).
      + intros E. apply qname_inj in E as [E _]. lia.
      + apply (bk_edges B). exact H1.
      + apply (bk_edges B). exact H2.
      + intros I. apply (bk_edges B) in I. exact (H3 I).
      + discriminate.
      + change (map (fun q0 => (fst q0, map (merge_label [qname (Z.of_nat t) q; qname (- Z.of_nat t) q] (qname 0 q)) (snd q0))) L)
          with (relabel_items (merge_turn (q, t)) L) in B1.
        assert (Lq : forall e, leg_of (relabel_items (merge_turn (q, t)) L) e -> exists j r, e = qname j r).
        { intros e I. apply relabel_leg in I as (e' & I & ->). apply Q in I as (j & r & ->). rewrite merge_turn_q.
          destruct ((r =? fst (q, t))%Z && (Z.abs j =? Z.of_nat (snd (q, t)))%Z); eauto. }
        destruct (IH n1 _ B1) as (n2 & E2 & B2); auto.
        * intros r u I. apply (P r); simpl; auto.
        * intros r u I. destruct (H r u) as (A1 & A2 & A3); [simpl; auto|].
          assert (Nr : r <> q).
          { intros ->. apply Nq. apply in_map_iff. exists (q, u). auto. }
          assert (Rk : forall j, merge_turn (q, t) (qname j r) = qname j r).
          { intros j. rewrite merge_turn_q. cbn [fst snd]. apply Z.eqb_neq in Nr. rewrite Nr. reflexivity. }
          rewrite !relabel_leg. split; [|split].
          -- eexists. split; [exact A1|]. rewrite Rk. reflexivity.
          -- eexists. split; [exact A2|]. rewrite Rk. reflexivity.
          -- intros (e' & I' & E'). destruct (Q _ I') as (j & r' & ->). rewrite merge_turn_q in E'. cbn [fst snd] in E'.
             destruct ((r' =? q)%Z && (Z.abs j =? Z.of_nat t)%Z) eqn:Z0.
             ++ apply qname_inj in E' as [_ E']. subst. apply andb_true_iff in Z0 as [Z0 _]. apply Z.eqb_eq in Z0. congruence.
             ++ apply qname_inj in E' as [<- <-]. tauto.
        * exists n2. split.
          -- cbn [foreach]. rewrite (@mbind_eq _ _ _ _ _ n n1 tt); auto.
             unfold close_turn. cbn [fst snd]. rewrite (@mbind_eq _ _ _ _ _ _ _ _ E1). reflexivity.
          -- replace (relabel_items (merge_turns ((q, t) :: ts)) L) with (relabel_items (merge_turns ts) (relabel_items (merge_turn (q, t)) L)); auto.
             unfold relabel_items. rewrite map_map. apply map_ext. intros [x ls]. cbn [fst snd]. f_equal. rewrite map_map. reflexivity.
  Qed.

  (** ** the legs of the unmerged network *)
  Lemma round_legs cl i e : leg_of (round_items cl i) e <->
    exists j q, e = qname j q /\
      (Z.abs j = Z.of_nat i /\ In q (cone cl i) \/
       Z.abs j = Z.of_nat i + 1 /\ In q (cone cl (Datatypes.S i)))%Z.
  Proof.
    unfold leg_of, round_items. split.
    - intros (x & ls & I & Ie). rewrite in_app_iff, !in_concat in I. destruct I as [(m & Im & I)|(m & Im & I)]; apply in_map_iff in Im as (q & <- & Iq).
      + rewrite iter_In in Iq. destruct I as [I|[I|[]]]; inversion I; subst; destruct Ie as [<-|[<-|[]]].
        * exists (Z.of_nat i), q. split; auto. left. split; [lia|auto].
        * exists (Z.of_nat i + 1)%Z, q. split; auto. right. split; [lia|apply cone_step; auto].
        * exists (- Z.of_nat i)%Z, q. split; auto. left. split; [lia|auto].
        * exists (- Z.of_nat i - 1)%Z, q. split; auto. right. split; [lia|apply cone_step; auto].
      + unfold phase_items in I. destruct (touches (cone cl i) q) eqn:T; [|destruct I].
        destruct I as [I|[I|[]]]; inversion I; subst; apply in_map_iff in Ie as (r & <- & Ir).
        * exists (Z.of_nat i + 1)%Z, r. split; auto. right. split; [lia|eapply touched_cone; eauto].
        * exists (- Z.of_nat i - 1)%Z, r. split; auto. right. split; [lia|eapply touched_cone; eauto].
    - intros (j & q & -> & [[A I]|[A I]]).
      + destruct (Z.abs_eq_or_opp j) as [S|S].
        * exists (qname (2 * Z.of_nat i + 1) q), [qname (Z.of_nat i) q; qname (Z.of_nat i + 1) q]. split.
          -- apply in_app_iff. left. apply in_concat. exists (mixer_items (Z.of_nat i) q). split; [apply in_map, iter_In; auto|simpl; auto].
          -- left. f_equal. lia.
        * exists (qname (- 2 * Z.of_nat i - 1) q), [qname (- Z.of_nat i) q; qname (- Z.of_nat i - 1) q]. split.
          -- apply in_app_iff. left. apply in_concat. exists (mixer_items (Z.of_nat i) q). split; [apply in_map, iter_In; auto|simpl; auto].
          -- left. f_equal. lia.
      + simpl in I. apply in_app_iff in I as [I|I].
        * destruct (Z.abs_eq_or_opp j) as [S|S].
          -- exists (qname (2 * Z.of_nat i + 1) q), [qname (Z.of_nat i) q; qname (Z.of_nat i + 1) q]. split.
             ++ apply in_app_iff. left. apply in_concat. exists (mixer_items (Z.of_nat i) q). split; [apply in_map, iter_In; auto|simpl; auto].
             ++ right; left. f_equal. lia.
          -- exists (qname (- 2 * Z.of_nat i - 1) q), [qname (- Z.of_nat i) q; qname (- Z.of_nat i - 1) q]. split.
             ++ apply in_app_iff. left. apply in_concat. exists (mixer_items (Z.of_nat i) q). split; [apply in_map, iter_In; auto|simpl; auto].
             ++ right; left. f_equal. lia.
        * apply grow_In in I as (_ & x & Ix & T & Iq). destruct (Z.abs_eq_or_opp j) as [S|S].
          -- exists (cname (2 * Z.of_nat i + 2) x), (map (qname (Z.of_nat i + 1)) x). split.
             ++ apply in_app_iff. right. apply in_concat. exists (phase_items (cone cl i) (Z.of_nat i) x). split; [apply in_map; auto|].
                unfold phase_items. rewrite T. simpl; auto.
             ++ apply in_map_iff. exists q. split; auto. f_equal. lia.
          -- exists (cname (- 2 * Z.of_nat i - 2) x), (map (qname (- Z.of_nat i - 1)) x). split.
             ++ apply in_app_iff. right. apply in_concat. exists (phase_items (cone cl i) (Z.of_nat i) x). split; [apply in_map; auto|].
                unfold phase_items. rewrite T. simpl; auto.
             ++ apply in_map_iff. exists q. split; auto. f_equal. lia.
  Qed.
  Lemma all_legs cl p e : leg_of (all_items cl p) e <-> exists i, i < p /\ leg_of (round_items cl i) e.
  Proof.
    unfold leg_of, all_items. split.
    - intros (x & ls & I & Ie). apply in_concat in I as (m & Im & I). apply in_map_iff in Im as (i & <- & Ii).
      apply in_seq in Ii. exists i. split; [lia|]. eauto.
    - intros (i & Li & x & ls & I & Ie). exists x, ls. split; auto. apply in_concat. exists (round_items cl i). split; auto.
      apply in_map, in_seq. lia.
  Qed.

  Lemma turns_In cl p q t : In (q, t) (turns cl p) <-> exists i, i < p /\ t = Datatypes.S i /\ In q (grow (cone cl i)).
  Proof.
    unfold turns. rewrite in_concat. split.
    - intros (m & Im & I). apply in_map_iff in Im as (i & <- & Ii). apply in_seq in Ii.
      apply in_map_iff in I as (r & E & Ir). inversion E; subst. rewrite iter_In in Ir. exists i. split; [lia|]. auto.
    - intros (i & Li & -> & I). exists (map (fun q => (q, Datatypes.S i)) (iter (grow (cone cl i)))). split.
      + apply (in_map (fun i => map (fun q => (q, Datatypes.S i)) (iter (grow (cone cl i))))). apply in_seq. lia.
      + apply (in_map (fun q => (q, Datatypes.S i))). apply iter_In. auto.
  Qed.
  Lemma grow_once cl i j q : In q (grow (cone cl i)) -> In q (grow (cone cl j)) -> i = j.
  Proof.
    assert (X : forall i j, i < j -> In q (grow (cone cl i)) -> In q (grow (cone cl j)) -> False).
    { intros a b Lt I J. apply grow_In in J as [J _]. apply J. apply (@cone_mono cl (Datatypes.S a)); auto. simpl. apply in_app_iff. auto. }
    intros I J. destruct (lt_eq_lt_dec i j) as [[L|L]|L]; auto; exfalso; eauto.
  Qed.
  Lemma turns_NoDup cl p : NoDup (map fst (turns cl p)).
  Proof.
    unfold turns. rewrite concat_map, map_map.
    rewrite (map_ext _ (fun i => iter (grow (cone cl i)))) by (intros i; rewrite map_map; apply map_id).
    apply NoDup_flat.
    - apply seq_NoDup.
    - intros i _. apply iter_NoDup, minus_NoDup.
    - intros i j q _ _ I J. rewrite iter_In in I, J. eapply grow_once; eauto.
  Qed.

  (** the nodes of the network of a clause *)
  Definition final_items (cl : list Z) (p : nat) : list item :=
    relabel_items (merge_turns (turns cl p)) (all_items cl p) ++ [(cname 0 cl, map (qname 0) cl)].

  Theorem clause_net_run cl p : 0 < p ->
    exists n, clause_net iter c p cl = Ok (n, length (cone cl p)) /\ blank n (final_items cl p) (Some 2).
  Proof.
    intros Pp. unfold clause_net, lightcone.
    assert (B0 : blank (@empty_tn (tval CK)) (all_items cl 0) None).
    { constructor; auto.
      - intros e. simpl. split; [tauto|]. intros (x & ls & [] & _).
      - discriminate.
      - apply TNHist.empty_inv. }
    destruct (@layers_run cl p 0 _ [] B0) as (n1 & E1 & B1).
    rewrite Nat.add_0_l in E1, B1. cbn [app] in E1. fold (turns cl p) in E1.
    destruct (@merges_run (turns cl p) n1 (all_items cl p) B1) as (n2 & E2 & B2).
    - apply turns_NoDup.
    - intros q t I. apply turns_In in I as (i & _ & -> & _). lia.
    - intros e I. apply all_legs in I as (i & _ & I). apply round_legs in I as (j & q & -> & _). eauto.
    - intros q t I. apply turns_In in I as (i & Li & -> & I).
      assert (Ic : In q (cone cl (Datatypes.S i))) by (simpl; apply in_app_iff; auto).
      rewrite !all_legs. split; [|split].
      + exists i. split; auto. apply round_legs. exists (Z.of_nat (Datatypes.S i)), q. split; auto. right. split; auto. lia.
      + exists i. split; auto. apply round_legs. exists (- Z.of_nat (Datatypes.S i))%Z, q. split; auto. right. split; auto. lia.
      + intros (k & Lk & K). apply round_legs in K as (j & r & E & K). apply qname_inj in E as [<- <-].
        destruct K as [[K1 K2]|[K1 K2]]; [|lia]. assert (k = 0) by lia. subst k.
        apply grow_In in I as [I _]. apply I. apply (@cone_mono cl 0); auto. lia.
    - destruct (@dims_blank _ n2 _ 2 B2) as (n3 & E3 & B3).
      destruct (@add_blank _ (@tval_payload CK) (cname 0 cl) (map (qname 0) cl) (VTensor None) n3 (Some 2) _ eq_refl B3) as (n4 & E4 & B4).
      + unfold relabel_items. rewrite map_map. cbn [fst]. intros I. unfold all_items in I.
        rewrite concat_map, map_map in I. apply in_concat in I as (m & Im & I). apply in_map_iff in Im as (i & <- & _).
        apply round_keys in I as (j & K & r & E). inversion E; subst. lia.
      + apply no_NN_q.
      + right. intros e I. apply in_map_iff in I as (q & <- & Iq).
        apply (relabel_leg (merge_turns (turns cl p)) (all_items cl p)). exists (qname 0 q). split.
        * apply all_legs. exists 0. split; auto. apply round_legs. exists 0%Z, q. split; auto. left. split; auto. simpl. apply dedup_In; auto.
        * symmetry. apply merge_turns_keep. intros t It. apply turns_In in It as (i & _ & -> & _). lia.
      + exists n4. split; [|exact B4].
        assert (Q : (let! l := (let! r := layers iter c p 0 (dedup cl) [] in
                      foreach (@close_turn) (snd r) ;;
                      let! n := getst in
                      update_dimension (map (fun e => (e, Some 2)) (keys (edges n))) ;;
                      ret (fst r)) in
                     blank_node (cname 0 cl) (map (qname 0) cl) ;; ret (length l)) (@empty_tn (tval CK)) = (n4, Ok (length (cone cl p)))).
        { rewrite (@mbind_eq _ _ _ _ _ _ n3 (cone cl p)).
          - unfold blank_node. rewrite (@mbind_eq _ _ _ _ _ n3 n4 tt); [reflexivity|].
            rewrite (@mbind_eq _ _ _ _ _ _ _ _ E4). reflexivity.
          - rewrite (@mbind_eq _ _ _ _ _ _ _ _ E1). cbn [fst snd]. rewrite (@mbind_eq _ _ _ _ _ _ _ _ E2).
            rewrite (@mbind_eq _ _ _ getst _ n2 n2 n2 eq_refl). rewrite (@mbind_eq _ _ _ _ _ _ _ _ E3). reflexivity. }
        rewrite Q. reflexivity.
  Qed.
End Build.
