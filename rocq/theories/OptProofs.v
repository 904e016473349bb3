(** * The path optimisers return valid paths *)
From Coq Require Import List Arith ZArith Lia Bool Permutation.
From Verif Require Import Base PathSpec ModelOrder OrderProofs ModelPath PathProofs ModelOpt.
Import ListNotations.
Set Implicit Arguments.
Open Scope nat_scope.

(** ** a partial SSA path: what is left to contract *)
Definition opens_to (n : nat) (path : lpath) (rem : list nat) (next : nat) : Prop :=
  forall q, valid_ssa_from rem next q -> valid_ssa n (path ++ q).
Lemma opens_start n : opens_to n [] (seq 0 n) n.
Proof. intros q V. exact V. Qed.
Lemma opens_step n path rem next s : opens_to n path rem next -> s <> [] -> NoDup s -> incl s rem ->
  opens_to n (path ++ [s]) (filter (fun x => negb (mem x s)) rem ++ [next]) (S next).
Proof. intros O N1 N2 I q V. rewrite <- app_assoc. apply O. cbn. auto. Qed.
Lemma opens_end n path rem next : opens_to n path rem next -> length rem = 1 -> valid_ssa n path.
Proof. intros O L. rewrite <- (app_nil_r path). apply O. exact L. Qed.
Lemma filter_nil {A} (f : A -> bool) l : (forall x, In x l -> f x = false) -> filter f l = [].
Proof. induction l as [|x r IH]; intros H; simpl; auto. rewrite H by (left; auto). apply IH. intros; apply H; right; auto. Qed.
Lemma opens_all n path rem next s : opens_to n path rem next -> rem <> [] -> NoDup rem -> Permutation s rem ->
  valid_ssa n (path ++ [s]).
Proof.
  intros O Ne Nd P. apply O. cbn. split; [|split; [|split]].
  - intros ->. apply Permutation_nil in P. congruence.
  - eapply Permutation_NoDup; [symmetry; apply P|]; auto.
  - intros x. apply Permutation_in. auto.
  - rewrite filter_nil; auto. intros x I. apply negb_false_iff, mem_In. eapply Permutation_in; [symmetry; apply P|]; auto.
Qed.
Lemma perm_filter {A} (f : A -> bool) l m : Permutation l m -> Permutation (filter f l) (filter f m).
Proof.
  induction 1; simpl; auto.
  - destruct (f x); auto.
  - destruct (f x), (f y); auto. apply perm_swap.
  - etransitivity; eauto.
Qed.
Lemma valid_ssa_perm q : forall rem rem' next, Permutation rem rem' -> valid_ssa_from rem next q -> valid_ssa_from rem' next q.
Proof.
  induction q as [|s q IH]; intros rem rem' next P V; simpl in *.
  - rewrite <- (Permutation_length P). auto.
  - destruct V as (V1 & V2 & V3 & V4). split; auto. split; auto. split; [intros x I; eapply Permutation_in; eauto|].
    eapply IH; [|eauto]. apply Permutation_app; auto. apply perm_filter. auto.
Qed.
Lemma opens_perm n path rem rem' next : Permutation rem rem' -> opens_to n path rem next -> opens_to n path rem' next.
Proof. intros P O q V. apply O. eapply valid_ssa_perm; [symmetry; apply P|]. auto. Qed.
Lemma pair_out (i j : nat) rem : NoDup rem -> In i rem -> In j rem -> i <> j ->
  length (filter (fun x => negb (mem x [i; j])) rem) + 2 = length rem.
Proof.
  intros N Ii Ij D.
  assert (P : Permutation rem (i :: j :: filter (fun x => negb (mem x [i; j])) rem)).
  { apply NoDup_Permutation; auto.
    - constructor; [|constructor].
      + intros [E|I]; [congruence|]. apply filter_In in I as [_ I]. apply negb_true_iff, mem_false in I. apply I. simpl; auto.
      + intros I. apply filter_In in I as [_ I]. apply negb_true_iff, mem_false in I. apply I. simpl; auto.
      + apply NoDup_filter. auto.
    - intros x. cbn [In]. rewrite filter_In, negb_true_iff, mem_false. cbn [In].
      destruct (Nat.eq_dec i x); [subst; tauto|]. destruct (Nat.eq_dec j x); [subst; tauto|]. tauto. }
  apply Permutation_length in P. cbn [length] in P. lia.
Qed.
Lemma rest_NoDup ids rem next : NoDup rem -> (forall x, In x rem -> x < next) ->
  NoDup (filter (fun x => negb (mem x ids)) rem ++ [next]) /\
  (forall x, In x (filter (fun x => negb (mem x ids)) rem ++ [next]) -> x < S next).
Proof.
  intros N B. split.
  - apply NoDup_app_iff. split; [apply NoDup_filter; auto|]. split; [repeat constructor; auto|].
    intros x I [<-|[]]. apply filter_In in I as [I _]. apply B in I. lia.
  - intros x I. apply in_app_or in I as [I|[<-|[]]]; [|lia]. apply filter_In in I as [I _]. apply B in I. lia.
Qed.

Lemma combos_in {A} (l : list A) x y : In (x, y) (combos l) -> In x l /\ In y l.
Proof.
  induction l as [|z r IH]; simpl; [tauto|]. intros I. apply in_app_or in I as [I|I].
  - apply in_map_iff in I as (w & E & I). inversion E; subst. auto.
  - apply IH in I. tauto.
Qed.
Lemma combos_ne {A} (l : list A) x y : NoDup l -> In (x, y) (combos l) -> x <> y.
Proof.
  induction 1 as [|z r Nz N IH]; simpl; [tauto|]. intros I. apply in_app_or in I as [I|I]; auto.
  apply in_map_iff in I as (w & E & I). inversion E; subst. intros ->. auto.
Qed.

(** ** folds that always succeed *)
Lemma foldM_inv {A B} (f : B -> A -> res B) (P : B -> Prop) l : forall b, P b ->
  (forall b x, In x l -> P b -> exists b', f b x = Ok b' /\ P b') -> exists b', foldM f b l = Ok b' /\ P b'.
Proof.
  induction l as [|x r IH]; intros b Hb H; simpl; eauto. destruct (H b x) as (b1 & -> & H1); simpl; auto.
  cbn [bind]. apply IH; auto. intros b2 y I. apply H. right; auto.
Qed.
Lemma at_ok {A} (l : list A) i : i < length l -> exists x, at_ l i = Ok x /\ nth_error l i = Some x.
Proof. intros L. unfold at_. destruct (nth_error l i) eqn:E; eauto. apply nth_error_None in E. lia. Qed.
Lemma mapM_at {A} (l : list A) ids : Forall (fun i => i < length l) ids ->
  exists q, mapM (at_ l) ids = Ok q /\ picks ids l = Some q.
Proof.
  intros F. destruct (picks_some F) as (q & E). exists q. split; auto. pose proof (picks_mapM ids l) as M. rewrite E in M. exact M.
Qed.

(** ** index sets *)
Lemma sins_In x y l : In x (sins y l) <-> x = y \/ In x l.
Proof.
  induction l as [|z r IH]; simpl; [intuition|]. destruct (y <? z); [simpl; intuition|].
  destruct (Nat.eqb_spec y z); [subst; simpl; intuition|]. simpl. rewrite IH. intuition.
Qed.
Lemma mkset_In x l : In x (mkset l) <-> In x l.
Proof. induction l as [|y r IH]; simpl; [tauto|]. rewrite sins_In, IH. intuition. Qed.
Lemma sunion_In x a b : In x (sunion a b) <-> In x a \/ In x b.
Proof. unfold sunion. rewrite mkset_In, in_app_iff. tauto. Qed.
Lemma sinter_In x a b : In x (sinter a b) <-> In x a /\ In x b.
Proof. unfold sinter. rewrite filter_In, mem_In. tauto. Qed.
Lemma sdiff_In x a b : In x (sdiff a b) <-> In x a /\ ~ In x b.
Proof. unfold sdiff. rewrite filter_In, negb_true_iff, mem_false. tauto. Qed.

Section Known.
  Variable sizes : list (nat * Z).
  Definition known (k : nset) : Prop := forall x, In x k -> exists z, get x sizes = Some z.
  Lemma known_size k : known k -> exists z, size_by_dict k sizes = Ok z.
  Proof. intros K. eexists. apply size_by_dict_spec. exact K. Qed.
  Lemma known_flops k b t : known k -> exists z, flop_count k b t sizes = Ok z.
  Proof. intros K. unfold flop_count. destruct (known_size K) as (z & ->). cbn [bind]. eauto. Qed.
  Lemma known_union a b : known a -> known b -> known (sunion a b).
  Proof. intros A B x I. apply sunion_In in I as [I|I]; auto. Qed.
  Lemma known_sub a b : known b -> incl a b -> known a.
  Proof. intros B I x Ix. auto. Qed.
  Lemma known_inter a b : known a -> known (sinter a b).
  Proof. intros A x I. apply sinter_In in I as [I _]. auto. Qed.

  Lemma calc_ok output (inputs : list nset) remaining i j : Forall known inputs -> i < length inputs -> j < length inputs ->
    Forall (fun x => x < length inputs) remaining ->
    exists k12 c, calc_k12_flops sizes output inputs remaining i j = Ok (k12, c) /\ known k12.
  Proof.
    intros K Hi Hj F. unfold calc_k12_flops. destruct (at_ok inputs Hi) as (k1 & -> & N1). cbn [bind].
    destruct (at_ok inputs Hj) as (k2 & -> & N2). cbn [bind].
    destruct (@mapM_at _ inputs (filter (fun x => negb (mem x [i; j])) remaining)) as (q & E & _).
    { apply Forall_forall. intros x I. apply filter_In in I as [I _]. rewrite Forall_forall in F. auto. }
    rewrite E. cbn [bind]. rewrite Forall_forall in K.
    assert (K1 : known k1) by (eapply K, nth_error_In; eauto). assert (K2 : known k2) by (eapply K, nth_error_In; eauto).
    destruct (@known_flops (sunion k1 k2) (nonempty (sdiff (sinter k1 k2) (mkset (output ++ concat q)))) 2%Z) as (c & ->).
    { apply known_union; auto. }
    cbn [bind]. do 2 eexists. split; [reflexivity|]. apply known_inter, known_union; auto.
  Qed.
  Lemma oversize_ok output (inputs : list nset) remaining : Forall known inputs -> Forall (fun x => x < length inputs) remaining ->
    exists c, oversize_flops sizes output inputs remaining = Ok c.
  Proof.
    intros K F. unfold oversize_flops. destruct (mapM_at _ F) as (q & -> & P). cbn [bind]. apply known_flops.
    intros x I. rewrite mkset_In in I. apply in_concat in I as (s & Is & Ix). destruct (picks_in P Is) as (i & _ & Ni).
    rewrite Forall_forall in K. eapply K; [eapply nth_error_In; eauto|auto].
  Qed.
  Definition kcache (c : rcache) : Prop := forall k w, get k c = Some w -> known (fst w).
  Lemma kcache_set k w c : kcache c -> known (fst w) -> kcache (set k w c).
  Proof.
    intros K W k' w' E. destruct (eqb_spec k k') as [->|N]; [rewrite get_set_eq in E; inversion E; subst; auto|].
    rewrite get_set_neq in E; eauto.
  Qed.

  (** cached or computed result of a pair *)
  Lemma lookup_ok output (inputs : list nset) remaining i j k1 k2 (c : rcache) : Forall known inputs -> i < length inputs -> j < length inputs ->
    Forall (fun x => x < length inputs) remaining -> kcache c ->
    exists w c', match get (k1, k2) c with
                 | Some w => Ok (w, c)
                 | None => do w <- calc_k12_flops sizes output inputs remaining i j; Ok (w, set (k1, k2) w c)
                 end = Ok (w, c') /\ known (fst w) /\ kcache c'.
  Proof.
    intros K Hi Hj F C. destruct (get (k1, k2) c) as [w|] eqn:E.
    - exists w, c. split; auto. split; auto. eapply C; eauto.
    - destruct (@calc_ok output inputs remaining i j) as (k12 & z & -> & Kk); auto. cbn [bind].
      do 2 eexists. split; [reflexivity|]. split; auto. apply kcache_set; auto.
  Qed.
End Known.

(** ** optimal *)
Section OptimalProof.
  Variable ord : list nat -> list nat.
  Hypothesis ord_perm : forall l, Permutation (ord l) l.
  Variable sizes : list (nat * Z).
  Variable limit : option Z.
  Variable output : nset.

  Lemma optimal_iter_ok n fuel : forall path remaining inputs flops st,
    length remaining <= fuel -> remaining <> [] -> NoDup remaining -> (forall x, In x remaining -> x < length inputs) ->
    Forall (known sizes) inputs -> kcache sizes (o_cache st) -> valid_ssa n (o_path st) ->
    opens_to n path remaining (length inputs) ->
    exists st', optimal_iter ord sizes limit output fuel path remaining inputs flops st = Ok st' /\
      valid_ssa n (o_path st') /\ kcache sizes (o_cache st').
  Proof.
    induction fuel as [|fuel IH]; intros path remaining inputs flops st Lf Ne Nd B K Kc V O; cbn [optimal_iter].
    { destruct remaining; [congruence|simpl in Lf; lia]. }
    destruct (Nat.eqb_spec (length remaining) 1) as [L1|L1].
    { eexists. split; [reflexivity|]. split; auto. simpl. eapply opens_end; eauto. }
    apply (@foldM_inv _ _ _ (fun st => valid_ssa n (o_path st) /\ kcache sizes (o_cache st))); auto.
    intros s [a b] I (Vs & Ks).
    assert (No : NoDup (ord remaining)) by (eapply Permutation_NoDup; [symmetry; apply ord_perm|auto]).
    pose proof (combos_ne No I) as Nab. apply combos_in in I as [Ia Ib].
    apply (Permutation_in _ (ord_perm remaining)) in Ia. apply (Permutation_in _ (ord_perm remaining)) in Ib.
    cbn [fst snd]. set (i := Nat.min a b) in *. set (j := Nat.max a b) in *.
    assert (Ii : In i remaining) by (unfold i; destruct (Nat.min_spec a b) as [[_ ->]|[_ ->]]; auto).
    assert (Ij : In j remaining) by (unfold j; destruct (Nat.max_spec a b) as [[_ ->]|[_ ->]]; auto).
    assert (Nij : i <> j) by lia. clearbody i j.
    destruct (at_ok inputs (B _ Ii)) as (k1 & -> & N1). cbn [bind].
    destruct (at_ok inputs (B _ Ij)) as (k2 & -> & N2). cbn [bind].
    assert (Fr : Forall (fun x => x < length inputs) remaining) by (apply Forall_forall; auto).
    destruct (@lookup_ok sizes output inputs remaining i j k1 k2 (o_cache s)) as (w & c' & -> & Kw & Kc'); auto.
    cbn [bind fst snd o_flops o_path o_cache].
    destruct (below_best _ (o_flops s)); [|eexists; split; [reflexivity|]; split; auto].
    assert (Eov : exists ov, (match limit with None => Ok false | Some _ => do s0 <- size_by_dict (fst w) sizes; Ok (over_limit limit s0) end) = Ok ov).
    { destruct limit; eauto. destruct (known_size Kw) as (z' & ->). cbn [bind]. eauto. }
    destruct Eov as (ov & ->). cbn [bind]. destruct ov.
    - destruct (@oversize_ok sizes output inputs remaining) as (c & ->); auto. cbn [bind].
      destruct (below_best _ _); eexists; (split; [reflexivity|]); split; auto. simpl. eapply opens_all; eauto.
    - destruct (@rest_NoDup [i; j] remaining (length inputs)) as [R1 R2]; auto.
      apply IH; auto.
      + pose proof (@pair_out i j remaining Nd Ii Ij Nij). rewrite app_length. cbn [length]. lia.
      + intros E. apply app_eq_nil in E as [_ E]. discriminate.
      + intros x I. rewrite app_length. simpl. rewrite Nat.add_1_r. apply R2; auto.
      + apply Forall_app. split; auto.
      + rewrite app_length. simpl. rewrite Nat.add_1_r. apply opens_step; auto; [discriminate| |].
        * constructor; [simpl; intros [E|[]]; congruence|]. constructor; auto. constructor.
        * intros x [<-|[<-|[]]]; auto.
  Qed.

  Theorem optimal_valid (inputs : list nset) : 2 <= length inputs -> Forall (known sizes) inputs ->
    exists p, optimal ord sizes limit output inputs = Ok (zpath p) /\ valid_lin (length inputs) p.
  Proof.
    intros L K. unfold optimal.
    assert (S1 : seq 0 (length inputs) <> []) by (destruct (length inputs); simpl; [lia|discriminate]).
    destruct (@optimal_iter_ok (length inputs) (length inputs) [] (seq 0 (length inputs)) inputs 0 (OState None [seq 0 (length inputs)] []))
      as (st & E & V & _); auto.
    - rewrite seq_length. lia.
    - apply seq_NoDup.
    - intros x I. apply in_seq in I. lia.
    - intros k w E. discriminate.
    - cbn. apply (@opens_all (length inputs) [] (seq 0 (length inputs)) (length inputs)); auto; [apply opens_start|apply seq_NoDup].
    - apply opens_start.
    - rewrite E. cbn [bind]. destruct (@ssa_linear_ssa (length inputs) (o_path st)) as (p & E1 & Vp & _); auto.
      + intros E2. rewrite E2 in V. cbn in V. rewrite seq_length in V. lia.
      + eauto.
  Qed.
End OptimalProof.

(** ** branch and bound *)
Lemma foldM_last {A B} (f : B -> A -> res B) (P F : B -> Prop) l : l <> [] -> forall b, P b ->
  (forall b x, In x l -> P b -> exists b', f b x = Ok b' /\ P b' /\ F b') -> exists b', foldM f b l = Ok b' /\ P b' /\ F b'.
Proof.
  induction l as [|x r IH]; intros Ne b Hb H; [congruence|]. destruct (H b x) as (b1 & E & H1 & F1); simpl; auto.
  rewrite E. cbn [bind]. destruct r as [|y r]; [simpl; eauto|]. apply IH; auto; [discriminate|].
  intros b2 z I. apply H. right; auto.
Qed.
Section BranchProof.
  Variable ord : list nat -> list nat.
  Hypothesis ord_perm : forall l, Permutation (ord l) l.
  Variable sizes : list (nat * Z).
  Variable limit : option Z.
  Variable output : nset.
  Variable nbranch : option nat.
  Variable size_first : bool.
  Variable slow : Z -> Z -> bool.
  Variable arrange : lpath -> list cand -> list cand.
  Hypothesis arrange_perm : forall p l, Permutation (arrange p l) l.
  Hypothesis nbranch_pos : nbranch <> Some 0.

  (** the best path so far is valid; without a path nothing has been found *)
  Definition bok (n : nat) (st : bstate) : Prop :=
    (forall p, b_path st = Some p -> valid_ssa n p) /\ kcache sizes (b_cache st) /\
    (b_path st = None -> b_flops st = None /\ b_size st = None).
  Definition hi (m : nat) (st : bstate) : Prop := b_path st = None -> forall k, m <= k -> get k (b_prog st) = None.
  Definition found (st : bstate) : Prop := b_path st <> None.
  Definition cok (remaining : list nat) (c : cand) : Prop :=
    In (c_i c) remaining /\ In (c_j c) remaining /\ c_i c <> c_j c /\ known sizes (c_k12 c).

  Lemma better_free flops size st : b_flops st = None -> b_size st = None -> better size_first flops size st = true.
  Proof. intros E1 E2. unfold better. rewrite E1, E2. destruct size_first; auto. Qed.

  Lemma assess_ok n path (inputs : list nset) remaining flops size st i j :
    In i remaining -> In j remaining -> i <> j -> NoDup remaining -> (forall x, In x remaining -> x < length inputs) ->
    Forall (known sizes) inputs -> opens_to n path remaining (length inputs) ->
    bok n st -> hi (S (length inputs)) st ->
    exists st' o, assess ord sizes limit output size_first slow path inputs remaining flops size st i j = Ok (st', o) /\
      bok n st' /\ hi (S (length inputs)) st' /\ (found st -> found st') /\
      (forall c, o = Some c -> cok remaining c) /\
      (hi (length inputs) st -> found st' \/ o <> None).
  Proof.
    intros Ii Ij Nij Nd B K O (Bv & Bk & Bf) H. unfold assess.
    assert (Ner : remaining <> []) by (intros ->; destruct Ii).
    destruct (at_ok inputs (B _ Ii)) as (k1 & -> & N1). cbn [bind].
    destruct (at_ok inputs (B _ Ij)) as (k2 & -> & N2). cbn [bind].
    assert (Fr : Forall (fun x => x < length inputs) remaining) by (apply Forall_forall; auto).
    destruct (@lookup_ok sizes output inputs remaining i j k1 k2 (b_cache st)) as (w & c' & -> & Kw & Kc'); auto.
    cbn [bind fst snd]. destruct (known_size Kw) as (s12 & ->). cbn [bind].
    set (nf := (flops + snd w)%Z). set (ns := Z.max size s12).
    destruct (better size_first nf ns _) eqn:Eb.
    2:{ do 2 eexists. split; [reflexivity|]. split; [split; [auto|split; auto]|]. split; auto. split; auto. split; [discriminate|].
        intros Hl. left. intros Ep. simpl in Ep. destruct (Bf Ep) as [F1 F2]. rewrite better_free in Eb; simpl; auto. discriminate. }
    cbn [b_prog b_flops b_size b_path b_cache].
    destruct (negb (below_best nf (get (length inputs) (b_prog st))) &&
              match get (length inputs) (b_prog st) with Some b => slow nf b | None => false end) eqn:Es.
    { do 2 eexists. split; [reflexivity|]. split; [split; [auto|split; auto]|]. split; auto. split; auto. split; [discriminate|].
      intros Hl. left. intros Ep. simpl in Ep. rewrite (Hl Ep) in Es by lia. simpl in Es. discriminate. }
    set (st1 := if below_best nf (get (length inputs) (b_prog st)) then _ else _).
    assert (P1 : b_path st1 = b_path st) by (unfold st1; destruct (below_best _ _); auto).
    assert (P2 : b_flops st1 = b_flops st) by (unfold st1; destruct (below_best _ _); auto).
    assert (P3 : b_size st1 = b_size st) by (unfold st1; destruct (below_best _ _); auto).
    assert (P4 : b_cache st1 = c') by (unfold st1; destruct (below_best _ _); auto).
    assert (P5 : hi (S (length inputs)) st1).
    { unfold st1. destruct (below_best _ _); auto. intros Ep k Lk. simpl in *. rewrite get_set_neq by lia. apply H; auto. }
    clearbody st1.
    assert (B1 : bok n st1).
    { split; [rewrite P1; auto|]. split; [rewrite P4; auto|]. rewrite P1, P2, P3. auto. }
    destruct (over_limit limit s12).
    - destruct (@oversize_ok sizes output inputs remaining) as (c & ->); auto. cbn [bind]. rewrite P2.
      destruct (below_best (flops + c) (b_flops st)) eqn:Ebb.
      + do 2 eexists. split; [reflexivity|]. split.
        { split; [|split; simpl; [rewrite P4; auto|discriminate]]. simpl. intros p Ep. inversion Ep; subst. eapply opens_all; eauto. }
        split; [intros Ep; discriminate|]. split; [intros _ Ep; discriminate|]. split; [discriminate|].
        intros _. left. intros Ep. discriminate.
      + do 2 eexists. split; [reflexivity|]. split; auto. split; auto. split; [unfold found; rewrite P1; auto|]. split; [discriminate|].
        intros Hl. left. intros Ep. rewrite P1 in Ep. rewrite (proj1 (Bf Ep)) in Ebb. discriminate.
    - rewrite Forall_forall in K. destruct (@known_size sizes k1) as (s1 & ->); [eapply K, nth_error_In; eauto|]. cbn [bind].
      destruct (@known_size sizes k2) as (s2 & ->); [eapply K, nth_error_In; eauto|]. cbn [bind].
      do 2 eexists. split; [reflexivity|]. split; auto. split; auto. split; [unfold found; rewrite P1; auto|]. split.
      + intros cc Ec. inversion Ec; subst. unfold cok. simpl. auto.
      + intros _. right. discriminate.
  Qed.

  Lemma combos_some {A} (l : list A) : 2 <= length l -> combos l <> [].
  Proof. destruct l as [|x [|y r]]; simpl; try lia. discriminate. Qed.

  Definition Q (n : nat) (inputs : list nset) (remaining : list nat) (s : bstate * list cand) : Prop :=
    bok n (fst s) /\ hi (S (length inputs)) (fst s) /\ Forall (cok remaining) (snd s).
  Definition R (s : bstate * list cand) : Prop := found (fst s) \/ snd s <> [].

  Lemma collect_ok n outer path (inputs : list nset) remaining flops size st :
    2 <= length remaining -> NoDup remaining -> (forall x, In x remaining -> x < length inputs) ->
    Forall (known sizes) inputs -> opens_to n path remaining (length inputs) ->
    bok n st -> hi (length inputs) st ->
    exists s, collect ord sizes limit output size_first slow outer path inputs remaining flops size st = Ok s /\
      Q n inputs remaining s /\ (R s \/ (outer = false /\ s = (st, []))).
  Proof.
    intros L Nd B K O Bs Hs. unfold collect.
    assert (No : NoDup (ord remaining)) by (eapply Permutation_NoDup; [symmetry; apply ord_perm|auto]).
    assert (Nc : combos (ord remaining) <> []) by (apply combos_some; rewrite (Permutation_length (ord_perm remaining)); auto).
    assert (Hs' : hi (S (length inputs)) st) by (intros Ep k Lk; apply Hs; auto; lia).
    assert (Q0 : Q n inputs remaining (st, [])) by (split; auto; split; auto; constructor).
    (* one step *)
    assert (Step : forall s p, In p (combos (ord remaining)) -> Q n inputs remaining s -> (R s \/ s = (st, [])) ->
      exists s', (let i := Nat.min (fst p) (snd p) in
        let j := Nat.max (fst p) (snd p) in
        do k1 <- at_ inputs i; do k2 <- at_ inputs j;
        if negb outer && negb (nonempty (sinter k1 k2)) then Ok s
        else do a <- assess ord sizes limit output size_first slow path inputs remaining flops size (fst s) i j;
             Ok (fst a, match snd a with Some c => snd s ++ [c] | None => snd s end)) = Ok s' /\
        Q n inputs remaining s' /\ (R s' \/ (outer = false /\ s' = (st, [])))).
    { intros s [a b] I (Q1 & Q2 & Q3) Rs. pose proof (combos_ne No I) as Nab. apply combos_in in I as [Ia Ib].
      apply (Permutation_in _ (ord_perm remaining)) in Ia. apply (Permutation_in _ (ord_perm remaining)) in Ib.
      cbn [fst snd]. set (i := Nat.min a b) in *. set (j := Nat.max a b) in *.
      assert (Ii : In i remaining) by (unfold i; destruct (Nat.min_spec a b) as [[_ ->]|[_ ->]]; auto).
      assert (Ij : In j remaining) by (unfold j; destruct (Nat.max_spec a b) as [[_ ->]|[_ ->]]; auto).
      assert (Nij : i <> j) by lia. clearbody i j.
      destruct (at_ok inputs (B _ Ii)) as (k1 & -> & N1). cbn [bind].
      destruct (at_ok inputs (B _ Ij)) as (k2 & -> & N2). cbn [bind].
      destruct (negb outer && negb (nonempty (sinter k1 k2))) eqn:Eo.
      - exists s. split; auto. split; [split; auto|]. destruct Rs as [Rs|Rs]; auto. right. split; auto. destruct outer; auto; discriminate.
      - destruct (@assess_ok n path inputs remaining flops size (fst s) i j) as (st' & o & -> & A1 & A2 & A3 & A4 & A5); auto.
        cbn [bind fst snd]. eexists. split; [reflexivity|]. split.
        + split; auto. split; auto. simpl. destruct o as [c|]; auto. apply Forall_app. split; auto.
        + left. unfold R. simpl. destruct Rs as [[Rs|Rs]|Rs]; [left; auto|right|].
          * destruct o; auto. intros E. apply app_eq_nil in E as [_ E]. discriminate.
          * subst s. simpl in *. destruct (A5 Hs) as [A|A]; [left; auto|right]. destruct o; [discriminate|congruence]. }
    destruct (combos (ord remaining)) as [|p ps] eqn:Ec; [congruence|]. clear Nc. cbn [foldM].
    destruct (Step (st, []) p) as (s1 & E1 & Q1 & R1); auto; [left; auto|].
    cbn [fst snd] in E1 |- *. rewrite E1. cbn [bind].
    match goal with |- context[foldM ?f _ _] =>
      destruct (@foldM_inv _ _ f (fun s => Q n inputs remaining s /\ (R s \/ (outer = false /\ s = (st, [])))) ps s1) as (s2 & E2 & Q2 & R2); auto end.
    - intros s q Iq [Qs Rs]. apply Step; auto; [right; auto|]. destruct Rs as [Rs|[_ Rs]]; auto.
    - eauto.
  Qed.

  Lemma branch_iter_ok n fuel : forall path (inputs : list nset) remaining flops size st,
    length remaining <= fuel -> remaining <> [] -> NoDup remaining -> (forall x, In x remaining -> x < length inputs) ->
    Forall (known sizes) inputs -> opens_to n path remaining (length inputs) ->
    bok n st -> hi (length inputs) st ->
    exists st', branch_iter ord sizes limit output nbranch size_first slow arrange fuel path inputs remaining flops size st = Ok st' /\
      bok n st' /\ found st'.
  Proof.
    induction fuel as [|fuel IH]; intros path inputs remaining flops size st Lf Ne Nd B K O Bs Hs; cbn [branch_iter].
    { destruct remaining; [congruence|simpl in Lf; lia]. }
    destruct (Nat.eqb_spec (length remaining) 1) as [L1|L1].
    { eexists. split; [reflexivity|]. split; [split; [|split]|]; simpl.
      - intros p E. inversion E; subst. eapply opens_end; eauto.
      - apply Bs.
      - discriminate.
      - intros E. discriminate. }
    assert (L2 : 2 <= length remaining) by (destruct remaining as [|? [|? ?]]; simpl in *; try congruence; lia).
    destruct (@collect_ok n false path inputs remaining flops size st) as (s1 & -> & Q1 & R1); auto. cbn [bind].
    assert (C2 : exists s2, (match snd s1 with [] => collect ord sizes limit output size_first slow true path inputs remaining flops size (fst s1) | _ => Ok s1 end) = Ok s2
                /\ Q n inputs remaining s2 /\ R s2).
    { destruct (snd s1) as [|c cs] eqn:E1.
      - destruct (@collect_ok n true path inputs remaining flops size (fst s1)) as (s2 & -> & Q2 & R2); auto.
        + apply Q1.
        + destruct R1 as [[R1|R1]|[_ R1]]; [intros Ep; contradiction|congruence|]. subst s1. auto.
        + exists s2. split; auto. split; auto. destruct R2 as [R2|[R2 _]]; auto. discriminate.
      - exists s1. split; auto. split; auto. right. rewrite E1. discriminate. }
    destruct C2 as (s2 & -> & (B2 & H2 & F2) & R2). cbn [bind].
    set (cs := match nbranch with None => arrange path (snd s2) | Some b => firstn b (arrange path (snd s2)) end).
    assert (Ic : forall c, In c cs -> cok remaining c).
    { intros c I. rewrite Forall_forall in F2. apply F2. eapply Permutation_in; [apply (arrange_perm path)|].
      unfold cs in I. destruct nbranch; auto. rewrite <- (firstn_skipn n0 (arrange path (snd s2))). apply in_or_app. auto. }
    assert (D : cs = [] \/ cs <> []) by (destruct cs; [left; auto|right; discriminate]).
    destruct D as [Ecs|Ncs].
    { rewrite Ecs. simpl. eexists. split; [reflexivity|]. split; auto. destruct R2 as [R2|R2]; auto. exfalso. apply R2.
      assert (P := arrange_perm path (snd s2)). unfold cs in Ecs. destruct nbranch as [[|b]|]; [congruence| |].
      - destruct (arrange path (snd s2)); [|discriminate]. apply Permutation_nil in P. auto.
      - rewrite Ecs in P. apply Permutation_nil in P. auto. }
    match goal with |- context[foldM ?f _ _] =>
      destruct (@foldM_last _ _ f (fun s => bok n s /\ hi (S (length inputs)) s) found cs) with (b := fst s2) as (s3 & E3 & [B3 _] & F3); auto end.
    - intros s c I [Bc Hc]. destruct (Ic _ I) as (C1 & C2 & C3 & C4).
      destruct (@rest_NoDup [c_i c; c_j c] remaining (length inputs)) as [R3 R4]; auto.
      edestruct IH as (st' & E & Bst & Fst); [| | | | | | | |exists st'; split; [exact E|]]; auto.
      + pose proof (@pair_out (c_i c) (c_j c) remaining Nd C1 C2 C3). rewrite app_length. cbn [length]. lia.
      + intros E. apply app_eq_nil in E as [_ E]. discriminate.
      + intros x Ix. rewrite app_length. cbn [length]. rewrite Nat.add_1_r. apply R4; auto.
      + apply Forall_app. split; auto.
      + rewrite app_length. cbn [length]. rewrite Nat.add_1_r. apply opens_step; auto; [discriminate| |].
        * constructor; [simpl; intros [E|[]]; congruence|]. constructor; auto. constructor.
        * intros x [<-|[<-|[]]]; auto.
      + rewrite app_length. cbn [length]. rewrite Nat.add_1_r. auto.
      + split; auto. split; auto. intros Ep. contradiction.
    - eauto.
  Qed.

  Theorem branch_valid (inputs : list nset) : 2 <= length inputs -> Forall (known sizes) inputs ->
    exists p, branch ord sizes limit output nbranch size_first slow arrange inputs = Ok (zpath p) /\ valid_lin (length inputs) p.
  Proof.
    intros L K. unfold branch, branch_call.
    assert (S1 : seq 0 (length inputs) <> []) by (destruct (length inputs); simpl; [lia|discriminate]).
    assert (Em : exists zs, mapM (fun k => size_by_dict k sizes) inputs = Ok zs).
    { clear - K. induction K as [|k r Hk K IH]; simpl; eauto. destruct (known_size Hk) as (z & ->). cbn [bind].
      destruct IH as (zs & ->). cbn [bind]. eauto. }
    destruct Em as (zs & ->). cbn [bind branch_new b_flops b_size b_path b_prog].
    destruct (@branch_iter_ok (length inputs) (length inputs) [] inputs (seq 0 (length inputs)) 0 0 (BState None None None [] []))
      as (st & -> & (V & _ & _) & F); auto.
    - rewrite seq_length. lia.
    - apply seq_NoDup.
    - intros x I. apply in_seq in I. lia.
    - apply opens_start.
    - split; [|split]; simpl; auto; try discriminate.
    - intros _ k _. auto.
    - cbn [bind]. unfold found in F. destruct (b_path st) as [s|] eqn:E; [|congruence]. specialize (V s eq_refl).
      destruct (@ssa_linear_ssa (length inputs) s) as (p & E1 & Vp & _); auto.
      + intros ->. cbn in V. rewrite seq_length in V. lia.
      + rewrite E1. cbn [bind snd]. eauto.
  Qed.
End BranchProof.
