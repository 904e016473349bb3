(** * Proofs about the partitioning order finder, flattening and contraction trees *)
From Coq Require Import List Arith ZArith String Lia Bool Permutation.
From Verif Require Import Base OrderSpec ModelTN ModelContract ModelOrder NameOrder OrderProofs.
Import ListNotations.
Set Implicit Arguments.
Open Scope nat_scope.

Definition wide (o : gorder) : Prop := Forall (fun s => 2 <= List.length (fst s)) o.

(** the names made by resolving an order are its own or ('#', m) *)
Lemma paired_results path : forall lhs rhs k r, paired lhs rhs path k = Ok r ->
  forall x, In x (results (fst r)) -> x = rhs \/ exists m, x = hname m.
Proof.
  induction path as [|st r IH]; intros lhs rhs k q E x I; cbn [paired] in E.
  - inversion E; subst. destruct I.
  - destruct st as [|i [|j st]]; [discriminate| |].
    + destruct (pop_nth i lhs) as [p|] eqn:Ep; [|discriminate]. cbn [bind] in E. destruct r.
      * inversion E; subst. destruct I as [<-|[]]. auto.
      * eapply IH; eauto.
    + destruct (nth_error lhs i) as [u|]; [|discriminate]. destruct (nth_error lhs j) as [v|]; [|discriminate].
      destruct (pop_nth (Nat.max i j) lhs) as [p|]; [|discriminate]. cbn [bind] in E.
      destruct (pop_nth (Nat.min i j) (snd p)) as [p'|]; [|discriminate]. cbn [bind] in E.
      destruct (paired _ rhs r _) as [w|] eqn:Ew; [|discriminate]. cbn [bind] in E. inversion E; subst.
      destruct I as [<-|I]; [right; eexists; reflexivity|]. eapply IH; eauto.
Qed.
Lemma set_last_results o z o' : set_last o z = Ok o' -> forall x, In x (results o') -> x = z \/ In x (results o).
Proof.
  unfold set_last. intros E x I. destruct (rev o) as [|s r] eqn:Er; [discriminate|]. inversion E; subst.
  assert (Eo : o = rev r ++ [s]) by (rewrite <- (rev_involutive o), Er; auto). rewrite results_app in I.
  apply in_app_or in I. destruct I as [I|[<-|[]]]; auto. right. rewrite Eo, results_app. apply in_or_app; auto.
Qed.
Lemma resolve_results sp o : forall k o', resolve sp o k = Ok o' ->
  forall x, In x (results o') -> In x (results o) \/ exists m, x = hname m.
Proof.
  induction o as [|s r IH]; intros k o' E x I; cbn [resolve] in E.
  - inversion E; subst. destruct I.
  - destruct (path_to_paired_order s (sp s) k) as [p|] eqn:Ep; [|discriminate]. cbn [bind] in E.
    destruct (resolve sp r (snd p)) as [q|] eqn:Eq; [|discriminate]. cbn [bind] in E. inversion E; subst.
    rewrite results_app in I. apply in_app_or in I. destruct I as [I|I].
    + unfold path_to_paired_order in Ep. destruct (paired _ _ _ _) as [w|] eqn:Ew; [|discriminate]. cbn [bind] in Ep.
      destruct (set_last _ _) as [v|] eqn:Ev; [|discriminate]. cbn [bind] in Ep. inversion Ep; subst. cbn [fst] in I.
      destruct (set_last_results _ _ Ev _ I) as [->|J]; [left; left; auto|].
      destruct (paired_results _ _ _ _ Ew _ J) as [->|J']; auto. left; left; auto.
    + destruct (IH _ _ Eq _ I) as [J|J]; auto. left; right; auto.
Qed.
Lemma upto_hash_incl o : incl (upto_hash o) o.
Proof.
  induction o as [|s r IH]; intros x I; auto. cbn [upto_hash] in I. destruct (eqb (snd s) hash).
  - destruct I as [<-|[]]. left; auto.
  - destruct I as [<-|I]; [left; auto|right; auto].
Qed.
Lemma resolve_results_shape sp o o' : order_to_contraction_scheme sp o = Ok o' ->
  forall x, In x (results o') -> In x (results o) \/ exists m, x = hname m.
Proof.
  unfold order_to_contraction_scheme. destruct (counter_new o) as [k|]; [|discriminate]. cbn [bind].
  intros E x I. destruct (resolve_results _ _ _ E _ I) as [J|J]; auto. left.
  unfold results in *. apply in_map_iff in J. destruct J as (s & <- & J). apply in_map. apply upto_hash_incl; auto.
Qed.

(** ** Partitioning *)

Lemma put_block_ok b x parts : b < List.length parts ->
  exists p, put_block b x parts = Ok p /\ List.length p = List.length parts /\
    Permutation (concat p) (x :: concat parts).
Proof.
  revert b; induction parts as [|q r IH]; intros b L; simpl in L; [lia|]. destruct b; simpl.
  - exists ((q ++ [x]) :: r). split; auto. split; auto. simpl. rewrite <- app_assoc. simpl.
    symmetry. apply Permutation_middle.
  - destruct (IH b) as (p & -> & L' & P); [lia|]. exists (q :: p). cbn [bind]. split; auto. split; [simpl; lia|].
    simpl. rewrite P. symmetry. apply Permutation_middle.
Qed.
Lemma blocks_ok nodes : forall ids parts, List.length ids = List.length nodes ->
  Forall (fun b => b < List.length parts) ids ->
  exists p, blocks ids nodes parts = Ok p /\ Permutation (concat p) (nodes ++ concat parts).
Proof.
  induction nodes as [|x r IH]; intros [|b ids] parts L F; simpl in L; try discriminate.
  - exists parts. auto.
  - inversion F; subst. destruct (put_block_ok x _ H1) as (p & E & Lp & P). simpl. rewrite E. cbn [bind].
    destruct (IH ids p) as (q & Eq & Pq); [lia|rewrite Lp; auto|]. exists q. split; auto.
    rewrite Pq, P. symmetry. apply Permutation_middle.
Qed.
Lemma concat_repeat_nil K : concat (repeat (@nil name) K) = [].
Proof. induction K; simpl; auto. Qed.

Lemma concat_len_in {A} (p : list A) ps : In p ps -> List.length p <= List.length (concat ps).
Proof.
  induction ps as [|q r IH]; simpl; [tauto|]. rewrite app_length. intros [->|I]; [lia|]. specialize (IH I). lia.
Qed.

Section Khp.
  Variable part : list name -> option (list nat).
  Variable K cutoff : nat.
  (** the partitioner gives every node a block number below K *)
  Hypothesis part_ok : forall nodes ids, part nodes = Some ids ->
    List.length ids = List.length nodes /\ Forall (fun b => b < K) ids.

  Definition grouped (nodes : list name) (k : Z) (r : res (gorder * Z)) : Prop :=
    exists o l k', r = Ok (o ++ [(l, hash)], k') /\ (k <= k')%Z /\ fresh_in k k' (results o) /\
      (forall z, red nodes (o ++ [(l, z)]) [z]) /\
      (2 <= List.length nodes -> wide (o ++ [(l, hash)])).

  Lemma red_one l z : red l [(l, z)] [z].
  Proof. simpl. exists []. rewrite app_nil_r. auto. Qed.

  Lemma groups_ok rec parts :
    (forall p k, In p parts -> 2 <= List.length p -> grouped p k (rec p k)) ->
    forall k, exists g names k', groups cutoff rec parts k = Ok (g, names, k') /\ (k <= k')%Z /\
      fresh_in k k' (results g) /\ red (concat parts) g names /\ wide g /\
      List.length names = List.length (filter (fun p => negb (Nat.eqb (List.length p) 0)) parts).
  Proof.
    induction parts as [|p r IH]; intros Hr k.
    - exists [], [], k. cbn [groups]. split; auto. split; [lia|]. split; [apply fresh_nil|]. split; [simpl; auto|].
      split; [constructor|auto].
    - assert (Hr' : forall p k, In p r -> 2 <= List.length p -> grouped p k (rec p k)) by (intros; apply Hr; simpl; auto).
      specialize (IH Hr').
      destruct p as [|x [|y q]].
      + destruct (IH k) as (g & names & k' & E & L & F & R & W & Ln). exists g, names, k'. cbn [groups]. auto 10.
      + destruct (IH k) as (g & names & k' & E & L & F & R & W & Ln). exists g, (x :: names), k'. cbn [groups].
        rewrite E. cbn [bind fst snd]. split; auto. split; auto. split; auto. split; [|split; auto; simpl; lia].
        simpl. eapply red_perm_l; [symmetry; apply Permutation_cons_append|].
        eapply red_perm_r; [symmetry; apply Permutation_cons_append|]. apply red_frame; auto.
      + set (p := x :: y :: q) in *.
        assert (Lp : 2 <= List.length p) by (simpl; lia).
        assert (Hp : exists o k1, (if Nat.ltb cutoff (List.length p)
                          then do w <- rec p (k + 1)%Z; do o <- set_last (fst w) (hname (k + 1)); Ok (o, snd w)
                          else Ok ([(p, hname (k + 1))], (k + 1)%Z)) = Ok (o, k1) /\ (k + 1 <= k1)%Z /\
                    red p o [hname (k + 1)] /\ fresh_in k k1 (results o) /\ wide o).
        { destruct (Nat.ltb cutoff (List.length p)).
          - destruct (Hr p (k + 1)%Z (or_introl eq_refl) Lp) as (o & l & k1 & E & L & F & R & W).
            rewrite E. cbn [bind fst snd]. rewrite set_last_ok. cbn [bind]. exists (o ++ [(l, hname (k + 1))]), k1.
            split; auto. split; auto. split; [apply R|]. split.
            + rewrite results_app. simpl.
              destruct F as [F1 F2]. split.
              * apply NoDup_app_iff. split; auto. split; [repeat constructor; auto|]. intros w I [<-|[]].
                destruct (F2 _ I) as (m & E' & H). apply hname_inj in E'. lia.
              * intros w I. apply in_app_or in I. destruct I as [I|[<-|[]]].
                -- destruct (F2 _ I) as (m & -> & H). exists m. split; auto. lia.
                -- exists (k + 1)%Z. split; auto. lia.
            + specialize (W Lp). apply Forall_app in W. apply Forall_app. destruct W as [W1 W2]. split; auto.
              inversion W2; subst. constructor; [auto|constructor].
          - exists [(p, hname (k + 1))], (k + 1)%Z. split; auto. split; [lia|]. split; [apply red_one|].
            split; [apply fresh_one|]. constructor; [auto|constructor]. }
        destruct Hp as (o & k1 & E1 & L1 & R1 & F1 & W1).
        destruct (IH k1) as (g & names & k' & E & L & F & R & W & Ln).
        exists (o ++ g), (hname (k + 1) :: names), k'. unfold p at 1. cbn [groups]. fold p.
        cbn [counter_cnt fst snd]. rewrite E1. cbn [bind fst snd]. rewrite E. cbn [bind fst snd].
        split; auto. split; [lia|]. split; [|split; [|split]].
        * rewrite results_app. eapply fresh_app with (mid := k1) (mid' := k1); eauto; lia.
        * cbn [concat]. apply red_app with (hname (k + 1) :: concat r).
          -- apply (red_frame _ _ [hname (k + 1)] (concat r)). auto.
          -- eapply red_perm_l; [symmetry; apply Permutation_cons_append|].
             eapply red_perm_r; [symmetry; apply Permutation_cons_append|]. apply red_frame; auto.
        * apply Forall_app. auto.
        * cbn [filter]. unfold p at 1. cbn [List.length Nat.eqb negb]. simpl. lia.
  Qed.

  Lemma many_parts parts n : List.length (concat parts) = n -> 0 < n -> (forall p, In p parts -> List.length p <> n) ->
    2 <= List.length (filter (fun p => negb (Nat.eqb (List.length p) 0)) (parts : list (list name))).
  Proof.
    intros L N H.
    assert (A : forall ps : list (list name), 0 < List.length (concat ps) ->
      1 <= List.length (filter (fun p => negb (Nat.eqb (List.length p) 0)) ps)).
    { induction ps as [|p r IH]; simpl; [lia|]. destruct p; simpl; auto. lia. }
    revert n L N H. induction parts as [|p r IH]; simpl; intros n L N H; [lia|].
    destruct p as [|x p]; simpl.
    - apply IH with n; auto.
    - rewrite app_length in L. simpl in L. specialize (A r).
      assert (B : List.length (x :: p) <> n) by (apply H; auto). simpl in B.
      assert (1 <= List.length (filter (fun p => negb (Nat.eqb (List.length p) 0)) r)) by (apply A; lia). lia.
  Qed.

  Lemma perm_filter_len {A} (f : A -> bool) l m : Permutation l m -> List.length (filter f l) = List.length (filter f m).
  Proof.
    induction 1; simpl; auto; try lia.
    - destruct (f x); simpl; auto.
    - destruct (f x), (f y); simpl; auto.
  Qed.

  Lemma khp_ok fuel : forall nodes k, List.length nodes < fuel -> grouped nodes k (khp part K cutoff fuel nodes k).
  Proof.
    induction fuel as [|fuel IH]; intros nodes k L; [lia|]. cbn [khp].
    assert (Triv : grouped nodes k (Ok ([(nodes, hash)], k))).
    { exists [], nodes, k. split; auto. split; [lia|]. split; [apply fresh_nil|]. split; [intros; apply red_one|].
      intros. constructor; [auto|constructor]. }
    destruct (part nodes) as [ids|] eqn:Ep; auto.
    destruct (part_ok Ep) as [Li Fi].
    destruct (@blocks_ok nodes ids (repeat [] K)) as (parts & Eb & Pb); auto.
    { rewrite repeat_length. auto. }
    rewrite Eb. cbn [bind]. rewrite concat_repeat_nil, app_nil_r in Pb.
    destruct (existsb _ parts) eqn:Ex; auto.
    assert (Sm : forall p, In p parts -> List.length p < List.length nodes).
    { intros p I. assert (H1 : List.length p <> List.length nodes).
      { intros E. assert (X : existsb (fun p => Nat.eqb (List.length p) (List.length nodes)) parts = true).
        { apply existsb_exists. exists p. split; auto. apply Nat.eqb_eq; auto. }
        rewrite X in Ex. discriminate. }
      assert (H2 : List.length p <= List.length nodes); [|lia].
      rewrite <- (Permutation_length Pb). apply concat_len_in; auto. }
    set (sorted := sort_key (fun p : list name => (- Z.of_nat (List.length p))%Z) parts).
    assert (Ps : Permutation sorted parts) by apply sort_key_perm.
    assert (Pc : Permutation (concat sorted) nodes).
    { rewrite <- Pb. clear - Ps. induction Ps; simpl; auto.
      - apply Permutation_app_head; auto.
      - rewrite !app_assoc. apply Permutation_app_tail. apply Permutation_app_comm.
      - transitivity (concat l'); auto. }
    destruct (@groups_ok (khp part K cutoff fuel) sorted) with (k := k) as (g & names & k' & E & Lk & F & R & W & Ln).
    { intros p k0 I _. apply IH. assert (List.length p < List.length nodes); [|lia]. apply Sm.
      eapply Permutation_in; eauto. }
    rewrite E. cbn [bind fst snd]. exists g, names, k'. split; auto. split; auto. split; auto. split.
    - intros z. apply red_app with names; [|apply red_one]. eapply red_perm_l; eauto.
    - intros L2. apply Forall_app. split; auto. constructor; [|constructor]. cbn [fst]. rewrite Ln.
      rewrite (perm_filter_len _ Ps). apply many_parts with (List.length nodes).
      + apply Permutation_length; auto.
      + lia.
      + intros p I E'. apply Sm in I. lia.
  Qed.
End Khp.

(** ** Merging pairs first *)

Lemma remove1_perm (x : name) l : In x l -> Permutation l (x :: remove1 x l).
Proof.
  induction l as [|y r IH]; simpl; [tauto|]. intros I. destruct (eqb_spec x y) as [->|N]; auto.
  destruct I as [->|I]; [congruence|]. rewrite (IH I) at 1. apply perm_swap.
Qed.
Lemma remove1_keep (x y : name) l : x <> y -> In y l -> In y (remove1 x l).
Proof.
  intros N I. assert (D := remove1_perm x l). destruct (in_dec eq_dec_of_eqb x l) as [Ix|Ix].
  - specialize (D Ix). eapply Permutation_in in I; [|apply D]. destruct I as [E|I]; [congruence|auto].
  - replace (remove1 x l) with l; auto. clear - Ix. induction l as [|z r IH]; simpl; auto.
    destruct (eqb_spec x z); [subst; simpl in Ix; tauto|]. f_equal. apply IH. simpl in Ix. tauto.
Qed.

(** the pairs chosen are two different nodes of the current graph *)
Fixpoint good_picks (picks : list (nat * nat)) (n : nat) : Prop :=
  match picks with
  | [] => True
  | (i, j) :: r => i < n /\ j < n /\ i <> j /\ good_picks r (n - 1)
  end.

Lemma simplify_ok picks : forall nodes k, good_picks picks (List.length nodes) ->
  NoDup nodes -> (forall m, (k < m)%Z -> ~ In (hname m) nodes) ->
  exists o nodes' k', simplify picks nodes k = Ok (o, nodes', k') /\ (k <= k')%Z /\
    red nodes o nodes' /\ pairwise o /\ fresh_in k k' (results o) /\
    (forall x, In x nodes' -> In x nodes \/ In x (results o)) /\
    ((k < k')%Z -> In (hname k') nodes') /\ NoDup nodes' /\
    (nodes <> [] -> nodes' <> []).
Proof.
  induction picks as [|[i j] r IH]; intros nodes k G Nd Nn.
  - exists [], nodes, k. simpl. repeat split; auto; try constructor; try lia; intros x [].
  - destruct G as (Hi & Hj & Nij & G). destruct (nth_some _ Hi) as [x Ex], (nth_some _ Hj) as [y Ey].
    assert (Nxy : x <> y).
    { intros ->. apply Nij. eapply NoDup_nth_error; eauto. congruence. }
    assert (Ix : In x nodes) by (eapply nth_error_In; eauto).
    assert (Iy : In y (remove1 x nodes)) by (apply remove1_keep; auto; eapply nth_error_In; eauto).
    pose proof (remove1_perm _ _ Ix) as P1. pose proof (remove1_perm _ _ Iy) as P2.
    set (rest := remove1 y (remove1 x nodes)) in *.
    assert (P : Permutation nodes ([x; y] ++ rest)) by (rewrite P1, P2; auto).
    assert (Nr : NoDup ([x; y] ++ rest)) by (eapply Permutation_NoDup; eauto).
    assert (Ir : forall w, In w rest -> In w nodes).
    { intros w I. eapply Permutation_in; [symmetry; apply P|]. apply in_or_app; auto. }
    destruct (IH (rest ++ [hname (k + 1)]) (k + 1)%Z) as (o & nodes' & k' & E & L & R & Pw & F & Sub & Hk & Nd' & Ne).
    { rewrite app_length. simpl. replace (List.length rest + 1) with (List.length nodes - 1); auto.
      rewrite (Permutation_length P). simpl. lia. }
    { eapply Permutation_NoDup; [apply Permutation_cons_append|]. constructor.
      - intros I. apply (Nn (k + 1)%Z); [lia|auto].
      - inversion Nr; subst. inversion H2; auto. }
    { intros m Hm I. apply in_app_or in I. destruct I as [I|[I|[]]].
      - apply (Nn m); [lia|auto].
      - apply hname_inj in I. lia. }
    cbn [simplify]. rewrite Ex, Ey. destruct (eqb_spec x y); [congruence|]. cbn [counter_cnt fst snd].
    fold rest. rewrite E. cbn [bind fst snd].
    exists (([x; y], hname (k + 1)) :: o), nodes', k'. split; auto. split; [lia|]. split; [|split; [|split; [|split; [|split; [|split]]]]]; auto.
    + simpl. exists rest. split; auto. eapply red_perm_l; [symmetry; apply Permutation_cons_append|]. auto.
    + constructor; auto.
    + simpl. change (hname (k + 1) :: results o) with ([hname (k + 1)] ++ results o).
      eapply fresh_app with (mid := (k + 1)%Z) (mid' := (k + 1)%Z); try lia; auto. apply fresh_one.
    + intros w I. destruct (Sub _ I) as [J|J]; [|right; right; auto]. apply in_app_or in J.
      destruct J as [J|[<-|[]]]; [left; auto|right; left; auto].
    + intros _. destruct (Z.eq_dec (k + 1) k') as [Ek|Nk]; [|apply Hk; lia].
      destruct F as [F1 F2]. assert (Eo : o = []).
      { destruct o as [|s o]; auto. exfalso. destruct (F2 (snd s)) as (m & _ & H); [left; auto|lia]. }
      subst o. simpl in R. eapply Permutation_in; [apply R|]. apply in_or_app. right. left. congruence.
    + intros _. apply Ne. destruct rest; discriminate.
Qed.

Lemma khp_finder_complete picks part K cutoff sp nodes :
  (forall ns ids, part ns = Some ids -> List.length ids = List.length ns /\ Forall (fun b => b < K) ids) ->
  good_paths sp -> good_picks picks (List.length nodes) ->
  nodes <> [] -> NoDup nodes -> ~ In hash nodes -> Forall readable nodes ->
  (forall i, (1 <= i)%Z -> ~ In (hname i) nodes) ->
  exists o, khp_finder picks part K cutoff sp nodes = Ok o /\ complete_order nodes o hash /\
    (S (List.length picks) < List.length nodes -> pairwise o).
Proof.
  intros Po G Gp Ne Nd Nh Rd Nn.
  destruct (@simplify_ok picks nodes 0%Z) as (o1 & ns & k1 & E1 & L1 & R1 & Pw1 & F1 & Sub1 & Hk1 & Nd1 & Ne1); auto.
  { intros m Hm. apply Nn. lia. }
  unfold khp_finder. rewrite E1. cbn [bind fst snd]. rewrite counter_copy_ok by lia. cbn [bind].
  destruct (@khp_ok part K cutoff Po (S (List.length ns)) ns k1) as (o2 & l2 & k2 & E2 & L2 & F2 & R2 & W2); [lia|].
  rewrite E2. cbn [bind fst snd].
  assert (Dis : forall m, (k1 < m)%Z -> ~ In (hname m) ns).
  { intros m Hm I. destruct (Sub1 _ I) as [J|J]; [apply (Nn m); auto; lia|].
    destruct F1 as [_ F1]. destruct (F1 _ J) as (m' & E & H). apply hname_inj in E. lia. }
  assert (Nhs : ~ In hash ns).
  { intros I. destruct (Sub1 _ I) as [J|J]; auto. destruct F1 as [_ F1]. destruct (F1 _ J) as (m' & E & H). discriminate. }
  assert (C2 : complete_order ns (o2 ++ [(l2, hash)]) hash).
  { apply red_complete; auto; [destruct o2; discriminate|]. rewrite results_app. simpl results. rewrite app_assoc.
    destruct F2 as [F2 F2']. apply NoDup_app_iff. split; [|split].
    - apply NoDup_app_iff. split; auto. split; auto. intros w I1 I2. destruct (F2' _ I2) as (i & -> & Hi).
      apply (Dis i); auto; lia.
    - repeat constructor; auto.
    - intros w I [<-|[]]. apply in_app_or in I. destruct I as [I|I]; auto.
      destruct (F2' _ I) as (i & E' & _). discriminate. }
  assert (Sub2 : forall x, In x (operands (o2 ++ [(l2, hash)])) -> In x ns \/ In x (results o2)).
  { intros x I. eapply Permutation_in in I; [|apply (co_once C2)]. rewrite removelast_results in I.
    apply in_app_or in I. auto. }
  assert (Sne : forall s, In s (o2 ++ [(l2, hash)]) -> fst s <> []).
  { destruct ns as [|x [|y ns]]; [exfalso; apply Ne1; auto| |].
    - (* one node: a single step *)
      pose proof (R2 hash) as Rr. pose proof (red_balance _ _ _ Rr) as B. 
      intros s I. cbn [khp] in E2. destruct (part [x]) as [ids|] eqn:Ep.
      + destruct (Po _ _ Ep) as [Li Fi]. destruct ids as [|b [|]]; try discriminate.
        inversion Fi; subst. destruct (put_block_ok x (repeat [] K) (b := b)) as (p & Eb & Lp & Pp).
        { rewrite repeat_length; auto. }
        cbn [blocks] in E2. rewrite Eb in E2. cbn [bind] in E2.
        rewrite concat_repeat_nil in Pp.
        assert (X : existsb (fun p => Nat.eqb (List.length p) (List.length [x])) p = true).
        { apply existsb_exists. assert (Ix : In x (concat p)) by (eapply Permutation_in; [symmetry; apply Pp|left; auto]).
          apply in_concat in Ix. destruct Ix as (q & Iq & Ix). exists q. split; auto.
          assert (Lq : List.length q <= 1).
          { assert (L := Permutation_length Pp). simpl in L. rewrite <- L. apply concat_len_in; auto. }
          destruct q as [|? [|]]; simpl in *; try lia; auto. }
        rewrite X in E2. inversion E2. destruct o2 as [|? [|]]; simpl in H0; inversion H0; subst.
        simpl in I. destruct I as [<-|[]]. discriminate.
      + inversion E2. destruct o2 as [|? [|]]; simpl in H0; inversion H0; subst.
        simpl in I. destruct I as [<-|[]]. discriminate.
    - intros s I. assert (W : wide (o2 ++ [(l2, hash)])) by (apply W2; simpl; lia).
      unfold wide in W. rewrite Forall_forall in W. specialize (W _ I). destruct (fst s); simpl in W; [lia|discriminate]. }
  destruct (@scheme_ok sp ns _ C2) as (o3 & E3 & C3 & H3 & Rd3 & Pw3).
  { apply Forall_forall. intros x I. destruct (Sub2 _ I) as [J|J].
    - destruct (Sub1 _ J) as [J'|J']; [eapply Forall_forall in Rd; eauto|].
      destruct F1 as [_ F1]. destruct (F1 _ J') as (m & -> & _). apply hname_readable.
    - destruct F2 as [_ F2]. destruct (F2 _ J) as (m & -> & _). apply hname_readable. }
  { intros s I. destruct (G s (Sne s I)) as (A & B & _). auto. }
  rewrite E3. cbn [bind fst snd]. exists (o1 ++ o3). split; auto.
  assert (Hn : forall m, In (hname m) (results o3) -> (k1 < m)%Z).
  { intros m I. destruct (H3 _ I) as [J|[J1 J2]].
    - rewrite results_app in J. apply in_app_or in J. destruct J as [J|[J|[]]]; [|discriminate].
      destruct F2 as [_ F2]. destruct (F2 _ J) as (m' & E & H). apply hname_inj in E. lia.
    - destruct (Z.eq_dec 0 k1) as [Ek0|N]; [lia|]. apply J1. eapply Permutation_in; [symmetry; apply (co_once C2)|].
      apply in_or_app. left. apply Hk1. lia. }
  split.
  - apply red_complete.
    + destruct (co_last C3) as (a & b & ->). destruct o1, a; discriminate.
    + rewrite results_app, app_assoc. apply NoDup_app_iff.
      pose proof (co_names C3) as N3. apply NoDup_app_iff in N3. destruct N3 as (_ & N3 & D3).
      destruct F1 as [F1 F1']. split; [|split]; auto.
      * apply NoDup_app_iff. split; auto. split; auto. intros w I1 I2. destruct (F1' _ I2) as (m & -> & H).
        apply (Nn m); auto; lia.
      * intros w I1 I2. apply in_app_or in I1. destruct I1 as [I1|I1].
        -- assert (Iw : In w ns \/ In w (operands o1)).
           { pose proof (red_balance _ _ _ R1) as B. assert (In w (operands o1 ++ ns)).
             { eapply Permutation_in; [apply B|]. apply in_or_app; auto. }
             apply in_app_or in H. tauto. }
           destruct Iw as [Iw|Iw]; [apply (D3 w); auto|].
           (* w is an original node, so it is neither '#' nor a ('#', m) made later *)
           destruct (co_last C3) as (a & b & Ea).
           assert (Hw : w = hash \/ exists m, w = hname m).
           { apply (resolve_results_shape _ _ E3) in I2. destruct I2 as [I2|I2]; auto.
             rewrite results_app in I2. apply in_app_or in I2. destruct I2 as [I2|[I2|[]]]; auto.
             destruct F2 as [_ F2]. destruct (F2 _ I2) as (m & -> & _). eauto. }
           destruct Hw as [->|[m ->]]; auto. apply (Nn m); auto. specialize (Hn m I2). lia.
        -- destruct (F1' _ I1) as (m & -> & H). specialize (Hn m I2). lia.
    + apply red_app with ns; auto. apply complete_red; auto.
  - intros Ln. apply Forall_app. split; auto. apply Pw3. intros s I. destruct (G s (Sne s I)) as (_ & _ & P). apply P.
    assert (W : wide (o2 ++ [(l2, hash)])).
    { apply W2. pose proof (Permutation_length (red_balance _ _ _ R1)) as B. rewrite !app_length in B.
      unfold results in B. rewrite map_length in B.
      assert (Lo : List.length (operands o1) = 2 * List.length o1).
      { clear - Pw1. induction Pw1; unfold operands in *; simpl; auto. rewrite app_length. simpl in *. lia. }
      assert (Ls : List.length o1 = List.length picks).
      { clear - E1. revert nodes o1 ns k1 E1. generalize 0%Z as k. induction picks as [|[i j] r IH]; intros k nodes o1 ns k1 E; simpl in E.
        - inversion E; auto.
        - destruct (nth_error nodes i); [|discriminate]. destruct (nth_error nodes j); [|discriminate].
          destruct (eqb n n0); [discriminate|]. destruct (simplify r _ _) as [[[g a] b]|] eqn:Es; [|discriminate].
          cbn [bind fst snd] in E. inversion E; subst. simpl. f_equal. eapply IH; eauto. }
      unfold gorder, ostep in *. lia. }
    unfold wide in W. rewrite Forall_forall in W. apply W; auto.
Qed.
