(** * Proofs about linear and SSA paths *)
From Coq Require Import List Arith ZArith Lia Bool Permutation.
From Verif Require Import Base PathSpec ModelOrder OrderProofs ModelPath.
Import ListNotations.
Set Implicit Arguments.
Open Scope nat_scope.

(** ** picks *)
Lemma picks_length {A} ids : forall (l : list A) q, picks ids l = Some q -> length q = length ids.
Proof.
  induction ids as [|i r IH]; simpl; intros l q E; [inversion E; auto|].
  destruct (nth_error l i); [|discriminate]. destruct (picks r l) eqn:P; [|discriminate].
  inversion E; subst. simpl. erewrite IH; eauto.
Qed.
Lemma picks_some {A} ids (l : list A) : Forall (fun i => i < length l) ids -> exists q, picks ids l = Some q.
Proof.
  induction ids as [|i r IH]; intros F; simpl; eauto. inversion F as [|? ? H1 H2]; subst.
  destruct (IH H2) as (q & ->). destruct (nth_error l i) eqn:E; eauto. apply nth_error_None in E. lia.
Qed.
Lemma picks_range {A} ids : forall (l : list A) q, picks ids l = Some q -> Forall (fun i => i < length l) ids.
Proof.
  induction ids as [|i r IH]; intros l q E; simpl in E; auto.
  destruct (nth_error l i) eqn:N; [|discriminate]. destruct (picks r l) eqn:P; [|discriminate].
  constructor; eauto. apply nth_error_Some. congruence.
Qed.
Lemma picks_nth {A} ids : forall (l : list A) q k, picks ids l = Some q ->
  forall i, nth_error ids k = Some i -> nth_error q k = nth_error l i.
Proof.
  induction ids as [|i r IH]; intros l q k E j Nk; simpl in E; [destruct k; discriminate|].
  destruct (nth_error l i) eqn:N; [|discriminate]. destruct (picks r l) eqn:P; [|discriminate]. inversion E; subst.
  destruct k; simpl in *; [inversion Nk; subst; congruence|]. eapply IH; eauto.
Qed.
Lemma picks_in {A} ids : forall (l : list A) q x, picks ids l = Some q -> In x q -> exists i, In i ids /\ nth_error l i = Some x.
Proof.
  induction ids as [|i r IH]; intros l q x E I; simpl in E; [inversion E; subst; destruct I|].
  destruct (nth_error l i) eqn:N; [|discriminate]. destruct (picks r l) eqn:P; [|discriminate]. inversion E; subst.
  destruct I as [<-|I]; [exists i; simpl; auto|]. destruct (IH _ _ _ P I) as (j & J1 & J2). exists j. simpl. auto.
Qed.
Arguments picks_in {A ids l q x}.
Lemma picks_in_rev {A} ids : forall (l : list A) q i x, picks ids l = Some q -> In i ids -> nth_error l i = Some x -> In x q.
Proof.
  induction ids as [|i r IH]; intros l q j x E I N; simpl in E; [destruct I|].
  destruct (nth_error l i) eqn:Ni; [|discriminate]. destruct (picks r l) eqn:P; [|discriminate]. inversion E; subst.
  destruct I as [<-|I]; [rewrite N in Ni; inversion Ni; simpl; auto|]. right. eapply IH; eauto.
Qed.
Lemma picks_map {A B} (f : A -> B) ids : forall (l : list A) q, picks ids l = Some q -> picks ids (map f l) = Some (map f q).
Proof.
  induction ids as [|i r IH]; intros l q E; simpl in *; [inversion E; auto|].
  destruct (nth_error l i) eqn:N; [|discriminate]. destruct (picks r l) eqn:P; [|discriminate]. inversion E; subst.
  rewrite (map_nth_error f i l N), (IH _ _ P). auto.
Qed.
Lemma picks_NoDup {A} ids (l : list A) q : NoDup l -> NoDup ids -> picks ids l = Some q -> NoDup q.
Proof.
  revert q. induction ids as [|i r IH]; intros q Nl Ni E; simpl in E; [inversion E; constructor|].
  destruct (nth_error l i) eqn:N; [|discriminate]. destruct (picks r l) eqn:P; [|discriminate]. inversion E; subst.
  inversion Ni; subst. constructor; eauto. intros I. destruct (picks_in P I) as (j & Ij & Nj).
  assert (i = j); [|subst; tauto]. apply (proj1 (NoDup_nth_error l) Nl); [apply nth_error_Some; congruence|congruence].
Qed.
Lemma picks_mapM {A} ids : forall (l : list A), mapM (fun i => match nth_error l i with Some x => Ok x | None => Err IndexError end) ids =
  match picks ids l with Some q => Ok q | None => Err IndexError end.
Proof.
  induction ids as [|i r IH]; intros l; simpl; auto. destruct (nth_error l i); auto. simpl. rewrite IH.
  destruct (picks r l); auto.
Qed.

Arguments picks_length {A ids l q}. Arguments picks_some {A ids l}. Arguments picks_map {A B} f {ids l q}.

(** ** keep_except *)
Lemma keep_perm {A} (l : list A) : forall k a b, (forall i, In i a <-> In i b) -> keep_from k a l = keep_from k b l.
Proof.
  induction l as [|x r IH]; intros k a b H; simpl; auto. rewrite (IH (S k) a b H).
  assert (E : mem k a = mem k b).
  { destruct (mem k a) eqn:Ea, (mem k b) eqn:Eb; auto; [apply mem_In in Ea; apply mem_false in Eb|apply mem_In in Eb; apply mem_false in Ea];
      exfalso; rewrite H in *; auto. }
  rewrite E. auto.
Qed.
Lemma keep_out {A} (l : list A) : forall k ids, (forall i, In i ids -> i < k) -> keep_from k ids l = l.
Proof.
  induction l as [|x r IH]; intros k ids H; simpl; auto. destruct (mem k ids) eqn:E.
  - apply mem_In, H in E. lia.
  - rewrite IH; auto. intros i I. apply H in I. lia.
Qed.
Lemma keep_cons {A} (l : list A) : forall k i r, k <= i -> (forall j, In j r -> j < i) -> i < k + length l ->
  keep_from k (i :: r) l = keep_from k r (del_nth (i - k) l).
Proof.
  induction l as [|x q IH]; intros k i r L H Ll; simpl in Ll; [lia|]. destruct (Nat.eq_dec k i) as [->|N].
  - replace (i - i) with 0 by lia. unfold del_nth. simpl.
    change (eqb i i) with (Nat.eqb i i). rewrite Nat.eqb_refl. simpl.
    rewrite keep_out by (intros j I; destruct I as [<-|I]; auto; apply H in I; lia).
    rewrite keep_out by (intros j I; apply H in I; lia). auto.
  - replace (i - k) with (S (i - S k)) by lia. cbn [keep_from].
    assert (Ed : del_nth (S (i - S k)) (x :: q) = x :: del_nth (i - S k) q) by reflexivity.
    assert (E : mem k (i :: r) = mem k r).
    { change (mem k (i :: r)) with (Nat.eqb k i || mem k r)%bool. destruct (Nat.eqb_spec k i); [lia|auto]. }
    rewrite E, Ed. cbn [keep_from]. rewrite (IH (S k) i r) by (auto; lia). auto.
Qed.
Lemma keep_length {A} (l : list A) : forall k ids, NoDup ids -> (forall i, In i ids -> k <= i < k + length l) ->
  length (keep_from k ids l) + length ids = length l.
Proof.
  induction l as [|x r IH]; intros k ids N H; simpl.
  - destruct ids as [|i q]; auto. specialize (H i (or_introl eq_refl)). simpl in H. lia.
  - destruct (mem k ids) eqn:E.
    + apply mem_In in E. destruct (in_split _ _ E) as (a & b & ->).
      assert (Nd : NoDup (a ++ b)) by (eapply NoDup_remove_1; eauto).
      assert (Nk : ~ In k (a ++ b)) by (eapply NoDup_remove_2; eauto).
      assert (Ek : keep_from (S k) (a ++ k :: b) r = keep_from (S k) (a ++ b) r).
      { clear - r. assert (G : forall j, k < j -> keep_from j (a ++ k :: b) r = keep_from j (a ++ b) r); [|apply G; lia].
        induction r as [|y q IHq]; intros j Lj; simpl; auto.
        assert (M : mem j (a ++ k :: b) = mem j (a ++ b)).
        { destruct (mem j (a ++ b)) eqn:E2.
          - apply mem_In in E2. apply mem_In. apply in_app_or in E2. apply in_or_app. simpl. tauto.
          - apply mem_false in E2. apply mem_false. intros I. apply E2. apply in_app_or in I. apply in_or_app.
            destruct I as [I|[I|I]]; auto. lia. }
        rewrite M, IHq; auto. }
      rewrite Ek. specialize (IH (S k) (a ++ b) Nd). rewrite !app_length in *. simpl.
      assert (length (keep_from (S k) (a ++ b) r) + (length a + length b) = length r); [|lia].
      apply IH. intros i I. assert (I2 : In i (a ++ k :: b)) by (apply in_app_or in I; apply in_or_app; simpl; tauto).
      apply H in I2. simpl in I2. assert (i <> k) by congruence. lia.
    + simpl. apply mem_false in E. rewrite <- (IH (S k) ids N); [lia|]. intros i I. pose proof (H i I) as H'. simpl in H'.
      assert (i <> k) by congruence. lia.
Qed.
Lemma keep_map {A B} (f : A -> B) (l : list A) : forall k ids, keep_from k ids (map f l) = map f (keep_from k ids l).
Proof. induction l as [|x r IH]; intros k ids; simpl; auto. rewrite IH. destruct (mem k ids); auto. Qed.
Lemma keep_filter {A} `{Eqb A} (s : list A) ids (l : list A) : forall k,
  (forall i x, nth_error l i = Some x -> (In (k + i) ids <-> In x s)) ->
  keep_from k ids l = filter (fun x => negb (mem x s)) l.
Proof.
  induction l as [|x r IH]; intros k Hk; simpl; auto.
  rewrite (IH (S k)) by (intros i y N; rewrite <- (Hk (S i) y N); replace (k + S i) with (S k + i) by lia; tauto).
  specialize (Hk 0 x eq_refl). rewrite Nat.add_0_r in Hk.
  destruct (mem k ids) eqn:E1, (mem x s) eqn:E2; auto.
  - apply mem_In, Hk in E1. apply mem_false in E2. contradiction.
  - apply mem_In, Hk in E2. apply mem_false in E1. contradiction.
Qed.
Lemma keep_picks {A} `{Eqb A} ids (l q : list A) : NoDup l -> picks ids l = Some q ->
  keep_except ids l = filter (fun x => negb (mem x q)) l.
Proof.
  intros Nl P. apply keep_filter. intros i x N. simpl. split; intros I.
  - eapply picks_in_rev; eauto.
  - destruct (picks_in P I) as (j & Ij & Nj). assert (i = j); [|subst; tauto].
    apply (proj1 (NoDup_nth_error l) Nl); [apply nth_error_Some; congruence|congruence].
Qed.

Arguments keep_picks {A _ ids l q}.

(** ** deleting in descending order *)
Lemma ins_key_sorted x l : Sorted.StronglySorted le l -> Sorted.StronglySorted le (ins_key Z.of_nat x l).
Proof.
  induction l as [|y r IH]; intros Srt; simpl; [repeat constructor|]. inversion Srt as [|? ? S1 S2]; subst.
  destruct (Z.ltb_spec (Z.of_nat x) (Z.of_nat y)).
  - constructor; auto. constructor; [lia|]. eapply Forall_impl; [|apply S2]. simpl; intros; lia.
  - constructor; auto. apply Forall_forall. intros z I. rewrite Forall_forall in S2.
    assert (P : Permutation (ins_key Z.of_nat x r) (x :: r)).
    { clear. induction r as [|w r IH]; simpl; auto. destruct (_ <? _)%Z; auto.
      transitivity (w :: x :: r); [constructor; auto|apply perm_swap]. }
    eapply Permutation_in in I; [|apply P]. destruct I as [<-|I]; [lia|]. apply S2; auto.
Qed.
Lemma sort_key_sorted l : Sorted.StronglySorted le (sort_key Z.of_nat l).
Proof.
  unfold sort_key. assert (G : forall acc, Sorted.StronglySorted le acc ->
    Sorted.StronglySorted le (fold_left (fun a x => ins_key Z.of_nat x a) l acc)); [|apply G; constructor].
  induction l as [|x r IH]; simpl; intros acc Sa; auto. apply IH, ins_key_sorted; auto.
Qed.
Lemma sort_desc_perm l : Permutation (sort_desc l) l.
Proof. unfold sort_desc. rewrite <- Permutation_rev. apply sort_key_perm. Qed.
Lemma sort_desc_sorted l : Sorted.StronglySorted ge (sort_desc l).
Proof.
  unfold sort_desc. pose proof (sort_key_sorted l) as Srt. induction Srt as [|x r S1 IH F]; simpl; [constructor|].
  assert (G : forall a b, Sorted.StronglySorted ge a -> Forall (fun z => z >= b) a -> Sorted.StronglySorted ge (a ++ [b])).
  { clear. induction a as [|y q IH]; intros b S F; simpl; [repeat constructor|]. inversion S; inversion F; subst.
    constructor; auto. apply Forall_app. auto. }
  apply G; auto. apply Forall_rev. eapply Forall_impl; [|apply F]. simpl; intros; lia.
Qed.
Lemma del_all_sorted {A} d : forall (l : list A), Sorted.StronglySorted ge d -> NoDup d -> Forall (fun i => i < length l) d ->
  del_all d l = Ok (keep_except d l).
Proof.
  induction d as [|i r IH]; intros l Srt N F; simpl.
  - unfold keep_except. rewrite keep_out; auto. intros i [].
  - inversion Srt as [|? ? S1 S2]; inversion N; inversion F; subst. rewrite (proj2 (Nat.ltb_lt i (length l))) by auto.
    assert (Lt : forall j, In j r -> j < i).
    { intros j I. rewrite Forall_forall in S2. specialize (S2 j I). assert (j <> i) by congruence. lia. }
    assert (Ld : length (del_nth i l) = length l - 1).
    { unfold del_nth. rewrite app_length, firstn_length, skipn_length. lia. }
    rewrite IH; auto.
    + unfold keep_except. rewrite (@keep_cons A l 0 i r); auto; try lia. rewrite Nat.sub_0_r. auto.
    + apply Forall_forall. intros j I. rewrite Ld. apply Lt in I. lia.
Qed.
Lemma del_all_ok {A} ids (l : list A) : NoDup ids -> Forall (fun i => i < length l) ids ->
  del_all (sort_desc ids) l = Ok (keep_except ids l).
Proof.
  intros N F. pose proof (sort_desc_perm ids) as P. rewrite del_all_sorted.
  - f_equal. apply keep_perm. intros i. split; apply Permutation_in; [|symmetry]; auto.
  - apply sort_desc_sorted.
  - eapply Permutation_NoDup; [symmetry; apply P|]; auto.
  - eapply Permutation_Forall; [symmetry; apply P|]; auto.
Qed.

(** ** live identifiers: those below [next] not consumed *)
Definition alive (D : list nat) (next : nat) : list nat := filter (fun y => negb (mem y D)) (seq 0 next).
Definition count_lt (D : list nat) (x : nat) : nat := length (filter (fun c => c <? x) D).
Lemma alive_S D m : alive D (S m) = alive D m ++ (if mem m D then [] else [m]).
Proof. unfold alive. rewrite seq_S, filter_app. simpl. destruct (mem m D); auto. Qed.
Lemma alive_In D m x : In x (alive D m) <-> x < m /\ ~ In x D.
Proof.
  unfold alive. rewrite filter_In, in_seq, negb_true_iff, mem_false. simpl. split; intros [H1 H2]; split; auto; lia.
Qed.
Lemma alive_NoDup D m : NoDup (alive D m).
Proof. unfold alive. apply NoDup_filter. apply seq_NoDup. Qed.
Lemma count_S D m : NoDup D -> count_lt D (S m) = count_lt D m + (if mem m D then 1 else 0).
Proof.
  unfold count_lt. induction D as [|c r IH]; intros N; auto. inversion N as [|? ? N1 N2]; subst. cbn [filter].
  specialize (IH N2). change (mem m (c :: r)) with (eqb m c || mem m r)%bool.
  change (eqb m c) with (Nat.eqb m c). destruct (Nat.eqb_spec m c) as [->|Ne]; cbn [orb].
  - apply mem_false in N1. rewrite N1 in IH. rewrite (proj2 (Nat.ltb_lt c (S c))), (proj2 (Nat.ltb_ge c c)) by lia. simpl. lia.
  - destruct (Nat.ltb_spec c (S m)), (Nat.ltb_spec c m); try lia; simpl; lia.
Qed.
Lemma alive_length D m : NoDup D -> length (alive D m) + count_lt D m = m.
Proof.
  intros N. induction m as [|m IH].
  - simpl. unfold count_lt. clear. induction D; simpl; auto.
  - rewrite alive_S, count_S, app_length by auto. destruct (mem m D); simpl; lia.
Qed.
Lemma alive_pos D m i x : NoDup D -> nth_error (alive D m) i = Some x -> i + count_lt D x = x.
Proof.
  intros N. induction m as [|m IH]; intros E; [destruct i; discriminate|]. rewrite alive_S in E.
  destruct (Nat.lt_ge_cases i (length (alive D m))) as [L|L].
  - rewrite nth_error_app1 in E; auto.
  - rewrite nth_error_app2 in E; auto. destruct (mem m D) eqn:Em; [destruct (i - length (alive D m)); discriminate|].
    destruct (i - length (alive D m)) as [|k] eqn:Ei; simpl in E; [|destruct k; discriminate]. inversion E; subst.
    pose proof (@alive_length D x N). lia.
Qed.
Lemma alive_app D s m : filter (fun x => negb (mem x s)) (alive D m) = alive (D ++ s) m.
Proof.
  unfold alive. induction (seq 0 m) as [|x r IH]; simpl; auto.
  assert (E : mem x (D ++ s) = (mem x D || mem x s)%bool).
  { unfold mem. apply existsb_app. }
  rewrite E. destruct (mem x D); simpl; auto. destruct (mem x s); simpl; rewrite IH; auto.
Qed.
Lemma alive_next D m : ~ In m D -> alive D m ++ [m] = alive D (S m).
Proof. intros N. apply mem_false in N. rewrite alive_S, N. auto. Qed.

(** ** from linear to SSA *)
Lemma l2s_ok p : forall D next, NoDup D -> (forall c, In c D -> c < next) ->
  valid_lin (length (alive D next)) p ->
  exists s, l2s (alive D next) next p = Ok s /\ valid_ssa_from (alive D next) next s /\
    (forall A (node : list A -> A) (table : list A) (d : A), length table = next ->
       exists r t', lin_run node (map (fun i => nth i table d) (alive D next)) p = Some [r] /\
         ssa_run node table s = Some t' /\ (p <> [] -> nth_error t' (length t' - 1) = Some r)).
Proof.
  induction p as [|ids r IH]; intros D next N B V.
  - exists []. simpl in *. split; auto. split; auto. intros A node table d L.
    destruct (alive D next) as [|x [|y q]] eqn:E; try discriminate. simpl. exists (nth x table d), table. split; auto. split; auto. congruence.
  - destruct V as (Ne & Ni & F & V). destruct (picks_some F) as (q & Pq).
    assert (Nq : NoDup q) by (eapply (picks_NoDup (alive_NoDup D next)); eauto).
    assert (Iq : forall x, In x q -> In x (alive D next)).
    { intros x I. destruct (picks_in Pq I) as (i & _ & Hi). eapply nth_error_In; eauto. }
    assert (Ek : keep_except ids (alive D next) = alive (D ++ q) next).
    { rewrite (keep_picks (alive_NoDup D next) Pq). apply alive_app. }
    assert (Lk : length (alive (D ++ q) next) + length ids = length (alive D next)).
    { rewrite <- Ek. apply keep_length; auto. intros i I. rewrite Forall_forall in F. apply F in I. lia. }
    assert (Nn : ~ In next (D ++ q)).
    { intros I. apply in_app_or in I as [I|I]; [apply B in I; lia|]. apply Iq, alive_In in I. lia. }
    assert (Nd : NoDup (D ++ q)).
    { apply NoDup_app_iff. split; auto. split; auto. intros x I1 I2. apply Iq, alive_In in I2. tauto. }
    destruct (IH (D ++ q) (S next)) as (s & Es & Vs & Ts); auto.
    { intros c I. apply in_app_or in I as [I|I]; [apply B in I; lia|]. apply Iq, alive_In in I. lia. }
    { rewrite <- alive_next by auto. rewrite app_length. simpl. replace (length (alive (D ++ q) next) + 1) with (length (alive D next) - length ids + 1) by lia. auto. }
    exists (q :: s). cbn [l2s]. rewrite picks_mapM, Pq. cbn [bind]. rewrite del_all_ok by auto. cbn [bind]. rewrite Ek, alive_next by auto.
    rewrite Es. cbn [bind]. split; auto. split.
    + cbn [valid_ssa_from]. split; [|split; [auto|split; [auto|]]].
      * intros ->. apply picks_length in Pq. destruct ids; [congruence|discriminate].
      * rewrite alive_app, alive_next; auto.
    + intros A node table d L. cbn [lin_run ssa_run].
      rewrite (picks_map (fun i => nth i table d) Pq).
      assert (Pt : picks q table = Some (map (fun i => nth i table d) q)).
      { clear - L Iq. induction q as [|x q IH]; simpl; auto. rewrite IH by (intros; apply Iq; right; auto).
        assert (Hx : x < length table) by (rewrite L; apply (alive_In D), Iq; left; auto).
        rewrite (nth_error_nth' table d Hx). auto. }
      rewrite Pt. set (v := node (map (fun i => nth i table d) q)).
      unfold keep_except. rewrite keep_map. fold (keep_except ids (alive D next)). rewrite Ek.
      assert (Em : map (fun i => nth i table d) (alive (D ++ q) next) ++ [v] = map (fun i => nth i (table ++ [v]) d) (alive (D ++ q) (S next))).
      { rewrite <- alive_next by auto. rewrite map_app. simpl. f_equal.
        - apply map_ext_in. intros x I. apply alive_In in I. rewrite app_nth1 by lia. auto.
        - rewrite app_nth2 by lia. rewrite L, Nat.sub_diag. auto. }
      rewrite Em. destruct (Ts A node (table ++ [v]) d) as (z & t' & E1 & E2 & E3); [rewrite app_length; simpl; lia|].
      exists z, t'. split; auto. split; auto. intros _. destruct r as [|ids' r'].
      * cbn [l2s] in Es. inversion Es; subst s. simpl in E2. inversion E2; subst t'. simpl in V. simpl in E1.
        rewrite <- Em in E1. assert (La : length (alive (D ++ q) next) = 0) by lia.
        destruct (alive (D ++ q) next); [|discriminate]. simpl in E1. inversion E1.
        rewrite app_length. simpl. rewrite nth_error_app2 by lia. replace (length table + 1 - 1 - length table) with 0 by lia. auto.
      * apply E3. discriminate.
Qed.

Lemma seq_alive n : seq 0 n = alive [] n.
Proof. unfold alive. induction (seq 0 n) as [|a l IH]; cbn; auto. f_equal. exact IH. Qed.


Lemma valid_inputs p : forall n, valid_lin n p -> path_inputs p = n.
Proof.
  assert (G : forall p n, valid_lin n p -> list_sum (map (@length nat) p) + 1 = n + length p /\ 1 <= n).
  { clear. induction p as [|ids r IH]; simpl; intros n V; [lia|]. destruct V as (Ne & Nd & F & V). apply IH in V as [V1 V2].
    assert (length ids <= n).
    { assert (L := NoDup_incl_length Nd (l' := seq 0 n)). rewrite seq_length in L. apply L.
      intros i I. rewrite Forall_forall in F. apply F in I. apply in_seq. lia. }
    destruct ids; [congruence|]. simpl in *. lia. }
  intros n V. apply G in V. unfold path_inputs. lia.
Qed.

(** ** from SSA to linear *)
Lemma dec_from_nth i ids x z : nth_error ids x = Some z ->
  nth_error (dec_from i ids) x = Some (if i <=? x then (z - 1)%Z else z).
Proof.
  intros E. unfold dec_from. assert (Lx : x < length ids) by (apply nth_error_Some; congruence).
  destruct (Nat.leb_spec i x).
  - rewrite nth_error_app2 by (rewrite firstn_length; lia). rewrite firstn_length, Nat.min_l by lia.
    rewrite nth_error_map. assert (Es : nth_error (skipn i ids) (x - i) = Some z).
    { rewrite <- (firstn_skipn i ids) in E. rewrite nth_error_app2 in E by (rewrite firstn_length; lia).
      rewrite firstn_length, Nat.min_l in E by lia. auto. }
    rewrite Es. auto.
  - rewrite nth_error_app1 by (rewrite firstn_length; lia).
    rewrite <- (firstn_skipn i ids) in E. rewrite nth_error_app1 in E by (rewrite firstn_length; lia). auto.
Qed.
Lemma dec_from_length i ids : length (dec_from i ids) = length ids.
Proof. unfold dec_from. rewrite app_length, map_length, <- app_length, firstn_skipn. auto. Qed.

(** the array: position [x] holds x minus the number of consumed identifiers up to x *)
Definition count_le (D : list nat) (x : nat) : nat := length (filter (fun c => c <=? x) D).
Definition arr_ok (D : list nat) (ids : list Z) : Prop :=
  forall x, x < length ids -> nth_error ids x = Some (Z.of_nat x - Z.of_nat (count_le D x))%Z.
Lemma arr_step s : forall D ids, arr_ok D ids ->
  arr_ok (D ++ s) (fold_left (fun a i => dec_from i a) s ids) /\ length (fold_left (fun a i => dec_from i a) s ids) = length ids.
Proof.
  induction s as [|i r IH]; intros D ids H; simpl; [rewrite app_nil_r; auto|].
  replace (D ++ i :: r) with ((D ++ [i]) ++ r) by (rewrite <- app_assoc; auto).
  destruct (IH (D ++ [i]) (dec_from i ids)) as [H1 H2]; [|rewrite dec_from_length in H2; auto].
  intros x L. rewrite dec_from_length in L. erewrite dec_from_nth by (apply H; auto). f_equal.
  unfold count_le. rewrite filter_app, app_length. simpl. destruct (i <=? x); simpl; lia.
Qed.
Lemma count_le_lt D x : ~ In x D -> count_le D x = count_lt D x.
Proof.
  unfold count_le, count_lt. induction D as [|c r IH]; simpl; intros N; auto.
  destruct (Nat.leb_spec c x), (Nat.ltb_spec c x); simpl; rewrite ?IH; auto; lia.
Qed.

Lemma s2l_ok s : forall D next ids p, NoDup D -> (forall c, In c D -> c < next) -> arr_ok D ids ->
  Forall (Forall (fun i => i < length ids)) s ->
  valid_lin (length (alive D next)) p -> l2s (alive D next) next p = Ok s -> s2l ids s = Ok (zpath p).
Proof.
  induction s as [|q r IH]; intros D next ids p N B Ha F V E.
  - destruct p as [|i p]; auto. cbn [l2s] in E. rewrite picks_mapM in E. destruct (picks i _); [|discriminate]. cbn [bind] in E.
    destruct (del_all _ _); [|discriminate]. cbn [bind] in E. destruct (l2s _ _ _); discriminate.
  - destruct p as [|i p]; [discriminate|]. destruct V as (Ne & Ni & Fi & V). cbn [l2s] in E. rewrite picks_mapM in E.
    destruct (picks i (alive D next)) as [q'|] eqn:Pq; [|discriminate]. cbn [bind] in E.
    rewrite del_all_ok in E by auto. cbn [bind] in E.
    assert (Nq : NoDup q') by (eapply (picks_NoDup (alive_NoDup D next)); eauto).
    assert (Iq : forall x, In x q' -> In x (alive D next)).
    { intros x I. destruct (picks_in Pq I) as (k & _ & Hi). eapply nth_error_In; eauto. }
    assert (Ek : keep_except i (alive D next) = alive (D ++ q') next).
    { rewrite (keep_picks (alive_NoDup D next) Pq). apply alive_app. }
    assert (Lk : length (alive (D ++ q') next) + length i = length (alive D next)).
    { rewrite <- Ek. apply keep_length; auto. intros k I. rewrite Forall_forall in Fi. apply Fi in I. lia. }
    assert (Nn : ~ In next (D ++ q')).
    { intros I. apply in_app_or in I as [I|I]; [apply B in I; lia|]. apply Iq, alive_In in I. lia. }
    rewrite Ek, alive_next in E by auto.
    destruct (l2s (alive (D ++ q') (S next)) (S next) p) as [s|] eqn:Es; [|discriminate]. cbn [bind] in E. inversion E; subst; clear E.
    inversion F as [|? ? F1 F2]; subst. cbn [s2l zpath map].
    assert (Em : picks q ids = Some (map Z.of_nat i)).
    { clear - Pq F1 Ha N Iq. revert q Pq F1 Iq. induction i as [|a i IH]; intros q Pq F1 Iq; simpl in Pq; [inversion Pq; auto|].
      destruct (nth_error (alive D next) a) as [x|] eqn:Na; [|discriminate].
      destruct (picks i (alive D next)) as [q2|] eqn:P2; [|discriminate]. inversion Pq; subst. inversion F1; subst.
      cbn [picks]. rewrite (IH q2); auto; [|intros; apply Iq; right; auto]. rewrite (Ha x) by auto. cbn [map]. do 2 f_equal.
      pose proof (@alive_pos _ _ _ _ N Na) as Hp. rewrite count_le_lt by (apply (alive_In D next), Iq; left; auto). lia. }
    rewrite picks_mapM, Em. cbn [bind].
    destruct (arr_step q Ha) as [Ha' La'].
    rewrite (IH (D ++ q) (S next) _ p); auto.
    + apply NoDup_app_iff. split; auto. split; auto. intros x I1 I2. apply Iq, alive_In in I2. tauto.
    + intros c I. apply in_app_or in I as [I|I]; [apply B in I; lia|]. apply Iq, alive_In in I. lia.
    + rewrite La'. auto.
    + rewrite <- alive_next by auto. rewrite app_length. simpl.
      replace (length (alive (D ++ q) next) + 1) with (length (alive D next) - length i + 1) by lia. auto.
Qed.

(** every valid SSA path comes from a linear one *)
Lemma ssa_has_linear s : forall D next, NoDup D -> (forall c, In c D -> c < next) ->
  valid_ssa_from (alive D next) next s ->
  exists p, valid_lin (length (alive D next)) p /\ l2s (alive D next) next p = Ok s.
Proof.
  induction s as [|q r IH]; intros D next N B V.
  - exists []. simpl in *. auto.
  - destruct V as (Ne & Nq & Iq & V). rewrite alive_app in V.
    assert (Nn : ~ In next (D ++ q)).
    { intros I. apply in_app_or in I as [I|I]; [apply B in I; lia|]. apply Iq, alive_In in I. lia. }
    rewrite alive_next in V by auto. destruct (IH (D ++ q) (S next)) as (p & Vp & Ep); auto.
    { apply NoDup_app_iff. split; auto. split; auto. intros x I1 I2. apply Iq, alive_In in I2. tauto. }
    { intros c I. apply in_app_or in I as [I|I]; [apply B in I; lia|]. apply Iq, alive_In in I. lia. }
    set (ids := map (fun x => index_of x (alive D next)) q).
    assert (Pq : picks ids (alive D next) = Some q).
    { unfold ids. clear - Iq. induction q as [|x q IH]; simpl; auto. rewrite IH by (intros y I; apply Iq; right; auto).
      rewrite (index_of_nth x (alive D next)) by (apply Iq; left; auto). auto. }
    assert (Ni : NoDup ids).
    { unfold ids. clear - Nq Iq. induction Nq as [|x q Nx Nq IH]; simpl; constructor.
      - intros I. apply in_map_iff in I as (y & E & I). apply Nx. assert (x = y); [|subst; auto].
        eapply index_of_inj; [apply Iq; left; auto|apply Iq; right; auto|symmetry; apply E].
      - apply IH. intros y I. apply Iq. right; auto. }
    assert (Fi : Forall (fun i => i < length (alive D next)) ids) by (eapply picks_range; eauto).
    assert (Ek : keep_except ids (alive D next) = alive (D ++ q) next).
    { rewrite (keep_picks (alive_NoDup D next) Pq). apply alive_app. }
    assert (Lk : length (alive (D ++ q) next) + length ids = length (alive D next)).
    { rewrite <- Ek. apply keep_length; auto. intros k I. rewrite Forall_forall in Fi. apply Fi in I. lia. }
    exists (ids :: p). split.
    + cbn [valid_lin]. split; [|split; [auto|split; [auto|]]].
      * unfold ids. destruct q; [congruence|discriminate].
      * rewrite <- alive_next in Vp by auto. rewrite app_length in Vp. simpl in Vp.
        replace (length (alive D next) - length ids + 1) with (length (alive (D ++ q) next) + 1) by lia. auto.
    + cbn [l2s]. rewrite picks_mapM, Pq. cbn [bind]. rewrite del_all_ok by auto. cbn [bind]. rewrite Ek, alive_next by auto.
      rewrite Ep. auto.
Qed.

Lemma mapM_max (p : lpath) : Forall (fun s => s <> []) p -> mapM py_max p = Ok (map list_max p).
Proof.
  induction p as [|s r IH]; intros F; simpl; auto. inversion F; subst. destruct s; [congruence|]. cbn [py_max bind].
  rewrite IH; auto.
Qed.
Lemma ssa_nonempty p : forall rem next, valid_ssa_from rem next p -> Forall (fun s => s <> []) p.
Proof. induction p as [|s r IH]; intros rem next V; constructor; [apply V|]. destruct V as (_ & _ & _ & V). eauto. Qed.
Lemma list_max_le l : forall x, In x l -> x <= list_max l.
Proof. induction l as [|y r IH]; simpl; intros x I; [destruct I|]; destruct I as [->|I]; [lia|]. apply IH in I. lia. Qed.

Lemma ssa_to_linear_eq s p n : s <> [] -> valid_ssa n s -> valid_lin n p -> l2s (seq 0 n) n p = Ok s ->
  ssa_to_linear s = Ok (zpath p).
Proof.
  intros Ne Vs Vp E. unfold ssa_to_linear. pose proof (ssa_nonempty _ _ _ Vs) as F. rewrite (mapM_max F). cbn [bind].
  unfold py_max at 1. destruct (map list_max s) as [|m ms] eqn:Em; [destruct s; [congruence|discriminate]|]. cbn [bind]. rewrite <- Em.
  rewrite seq_alive in E. eapply (@s2l_ok s [] n); eauto; try constructor.
  - intros c [].
  - intros x L. rewrite map_length, seq_length in L. rewrite nth_error_map.
    assert (Ex : nth_error (seq 0 (1 + list_max (map list_max s))) x = Some x).
    { rewrite (nth_error_nth' _ 0) by (rewrite seq_length; auto). rewrite seq_nth; auto. }
    rewrite Ex. simpl. f_equal. lia.
  - rewrite map_length, seq_length. apply Forall_forall. intros q Iq. apply Forall_forall. intros i Ii.
    assert (i <= list_max q) by (apply list_max_le; auto).
    assert (list_max q <= list_max (map list_max s)) by (apply list_max_le, in_map; auto). lia.
  - rewrite <- seq_alive, seq_length. auto.
Qed.

Theorem linear_ssa_linear n p : valid_lin n p -> p <> [] ->
  exists s, linear_to_ssa p = Ok s /\ valid_ssa n s /\ ssa_to_linear s = Ok (zpath p) /\
    exists t, lin_tree n p = Some t /\ ssa_tree n s = Some t.
Proof.
  intros V Ne. unfold linear_to_ssa. rewrite (@valid_inputs _ _ V).
  destruct (@l2s_ok p [] n) as (s & E & Vs & T); try constructor; auto.
  { intros c []. } { rewrite <- seq_alive, seq_length. auto. }
  rewrite <- seq_alive in *. exists s. split; auto. split; auto. split.
  - apply (@ssa_to_linear_eq s p n); auto. intros ->. destruct p as [|ids p]; [congruence|]. cbn [l2s] in E.
    destruct (mapM _ ids); [|discriminate]. cbn [bind] in E. destruct (del_all _ _); [|discriminate]. cbn [bind] in E.
    destruct (l2s _ _ _); discriminate.
  - destruct (T ptree PNode (map PLeaf (seq 0 n)) (PLeaf 0)) as (r & t' & E1 & E2 & E3).
    { rewrite map_length, seq_length. auto. }
    exists r. unfold lin_tree, ssa_tree. rewrite E2, E3 by auto. split; auto.
    assert (Em : map (fun i => nth i (map PLeaf (seq 0 n)) (PLeaf 0)) (seq 0 n) = map PLeaf (seq 0 n)).
    { apply map_ext_in. intros i I. apply in_seq in I. rewrite map_nth, seq_nth by lia. auto. }
    rewrite Em in E1. rewrite E1. auto.
Qed.

Theorem ssa_linear_ssa n s : valid_ssa n s -> s <> [] ->
  exists p, ssa_to_linear s = Ok (zpath p) /\ valid_lin n p /\ linear_to_ssa p = Ok s.
Proof.
  intros V Ne. unfold valid_ssa in V. rewrite seq_alive in V.
  destruct (@ssa_has_linear s [] n) as (p & Vp & Ep); try constructor; auto. { intros c []. }
  rewrite <- seq_alive in *. rewrite seq_length in Vp. exists p. split; [|split; auto].
  - apply (@ssa_to_linear_eq s p n); auto.
  - unfold linear_to_ssa. rewrite (@valid_inputs _ _ Vp). auto.
Qed.

(** ** find_contraction *)
Lemma pop_all_ok {A} d : forall (l : list A), Sorted.StronglySorted ge d -> NoDup d -> Forall (fun i => i < length l) d ->
  exists q, pop_all d l = Ok (q, keep_except d l) /\ picks d l = Some q.
Proof.
  induction d as [|i r IH]; intros l Srt N F; simpl.
  - exists []. split; auto. unfold keep_except. rewrite keep_out; auto. intros i [].
  - inversion Srt as [|? ? S1 S2]; inversion N; inversion F; subst.
    assert (Lt : forall j, In j r -> j < i).
    { intros j I. rewrite Forall_forall in S2. specialize (S2 j I). assert (j <> i) by congruence. lia. }
    assert (Ld : length (del_nth i l) = length l - 1).
    { unfold del_nth. rewrite app_length, firstn_length, skipn_length. lia. }
    unfold pop_nth. destruct (nth_error l i) as [x|] eqn:E; [|apply nth_error_None in E; lia]. cbn [bind fst snd].
    destruct (IH (del_nth i l)) as (q & E1 & E2); auto.
    { apply Forall_forall. intros j I. rewrite Ld. apply Lt in I. lia. }
    rewrite E1. cbn [bind fst snd]. exists (x :: q). split.
    + unfold keep_except. rewrite (@keep_cons A l 0 i r); auto; try lia. rewrite Nat.sub_0_r. auto.
    + assert (Ep : picks r l = Some q); [|rewrite Ep; auto].
      rewrite <- E2. clear - Lt. induction r as [|j r IH]; simpl; auto. rewrite IH by (intros; apply Lt; right; auto).
      assert (Lj : j < i) by (apply Lt; left; auto).
      assert (En : nth_error (del_nth i l) j = nth_error l j); [|rewrite En; auto].
      unfold del_nth. destruct (Nat.lt_ge_cases j (length l)).
      * rewrite nth_error_app1 by (rewrite firstn_length; lia).
        rewrite <- (firstn_skipn i l) at 2. rewrite nth_error_app1 by (rewrite firstn_length; lia). auto.
      * rewrite (proj2 (nth_error_None l j)) by auto. apply nth_error_None.
        rewrite app_length, firstn_length, skipn_length. lia.
Qed.

Theorem find_contraction_spec positions inputs output :
  positions <> [] -> NoDup positions -> Forall (fun i => i < length inputs) positions ->
  exists new rest removed contract,
    find_contraction positions inputs output = Ok (new, rest ++ [new], removed, contract) /\
    rest = keep_except positions inputs /\
    (forall x, In x contract <-> exists i s, In i positions /\ nth_error inputs i = Some s /\ In x s) /\
    (forall x, In x new <-> In x contract /\ (In x output \/ exists s, In s rest /\ In x s)) /\
    (forall x, In x removed <-> In x contract /\ ~ In x new).
Proof.
  intros Ne Nd F. pose proof (sort_desc_perm positions) as P.
  destruct (@pop_all_ok (list nat) (sort_desc positions) inputs) as (q & E & Pq).
  { apply sort_desc_sorted. } { eapply Permutation_NoDup; [symmetry; apply P|]; auto. }
  { eapply Permutation_Forall; [symmetry; apply P|]; auto. }
  unfold find_contraction. rewrite E. cbn [bind fst snd].
  assert (Ek : keep_except (sort_desc positions) inputs = keep_except positions inputs).
  { apply keep_perm. intros i. split; apply Permutation_in; [|symmetry]; auto. }
  destruct q as [|s r] eqn:Eq.
  { apply picks_length in Pq. rewrite (Permutation_length P) in Pq. destruct positions; [congruence|discriminate]. }
  rewrite Ek. do 4 eexists. split; [reflexivity|]. split; [reflexivity|]. rewrite <- Eq in *. clear E Eq s r.
  assert (Hc : forall x, In x (dedup (concat q)) <-> exists i s, In i positions /\ nth_error inputs i = Some s /\ In x s).
  { intros x. rewrite dedup_In, in_concat. split.
    - intros (s & Is & Ix). destruct (picks_in Pq Is) as (i & Ii & Ni). exists i, s. split; auto.
      eapply Permutation_in; eauto.
    - intros (i & s & Ii & Ni & Ix). exists s. split; auto. eapply picks_in_rev; eauto. eapply Permutation_in; [symmetry; apply P|]; auto. }
  split; [exact Hc|]. split.
  - intros x. unfold inter. rewrite filter_In, mem_In, dedup_In. simpl. rewrite in_app_iff, in_concat. tauto.
  - intros x. unfold diff. rewrite filter_In, negb_true_iff, mem_false. tauto.
Qed.

Lemma size_by_dict_spec indices d : (forall i, In i indices -> exists z, get i d = Some z) ->
  size_by_dict indices d = Ok (fold_right Z.mul 1%Z (map (fun i => match get i d with Some z => z | None => 1%Z end) indices)).
Proof.
  induction indices as [|i r IH]; intros H; simpl; auto. destruct (H i) as (z & E); [left; auto|]. rewrite E, IH; auto.
  intros; apply H; right; auto.
Qed.
