(** * get_path of an undirected contraction tree returns a valid path of the tree it holds *)
From Coq Require Import List Arith ZArith Lia Bool Permutation.
From Verif Require Import Base PathSpec UctSpec ModelOrder ModelPath ModelOpt PathProofs OptProofs DPProofs ModelUct UctProofs.
Import ListNotations.
Set Implicit Arguments.

(** ** parents *)
Fixpoint pars (P : nat -> option nat) (p : nat) (t : ut) : Prop :=
  P (uid t) = Some p /\ match t with UL _ => True | UN v l r => pars P v l /\ pars P v r end.
Definition par_ok (A : nat -> list nat) (P : nat -> option nat) : Prop :=
  (forall x y, In y (A x) -> P x = Some y \/ P y = Some x) /\
  (forall x, A x <> [] -> exists p, P x = Some p /\ In p (A x)).

Lemma hang_in n A p t : hang n A p t -> In p (A (uid t)).
Proof. intros H. rewrite (hang_top _ _ _ _ H). left. auto. Qed.
Lemma hang_kid n A p v l r : hang n A p (UN v l r) -> In (uid l) (A v) /\ In (uid r) (A v).
Proof. simpl. intros (_ & P & _). rewrite !P. simpl. auto. Qed.
Lemma pars_of n A P t : forall p, par_ok A P -> hang n A p t -> NoDup (p :: ids t) -> P (uid t) = Some p -> pars P p t.
Proof.
  induction t as [i|v l IHl r IHr]; intros p K H ND E; [split; auto|].
  cbn [pars]. split; auto. pose proof (@hang_kid _ _ _ _ _ _ H) as [Il Ir]. destruct H as (N & Pm & Hl & Hr). cbn [ids] in ND.
  inversion ND as [|? ? Np ND1]; subst. inversion ND1 as [|? ? Nv ND2]; subst. rewrite in_app_iff in Nv. apply NoDup_app_iff in ND2 as (Nl & Nr & D).
  simpl in E. simpl in Np. rewrite in_app_iff in Np.
  assert (El : P (uid l) = Some v). { destruct (proj1 K _ _ Il) as [Q|Q]; auto. pose proof (uid_in l). assert (p = uid l) by congruence. subst. tauto. }
  assert (Er : P (uid r) = Some v). { destruct (proj1 K _ _ Ir) as [Q|Q]; auto. pose proof (uid_in r). assert (p = uid r) by congruence. subst. tauto. }
  split; [apply IHl|apply IHr]; auto; constructor; auto.
Qed.
Lemma pars_edges n A P t : forall p, hang n A p t -> pars P p t ->
  forall x, In x (ids t) -> (exists q, P x = Some q /\ In q (A x)) /\ forall y, In y (A x) -> P x = Some y \/ P y = Some x.
Proof.
  induction t as [i|v l IHl r IHr]; intros p H Q x Hx.
  - destruct Hx as [<-|[]]. destruct H as [_ E]. destruct Q as [Q _]. simpl in Q. rewrite E. split; [exists p; simpl; auto|].
    intros y [<-|[]]. auto.
  - destruct H as (N & Pm & Hl & Hr). destruct Q as (Q & Ql & Qr). simpl in Q. simpl in Hx. rewrite in_app_iff in Hx. destruct Hx as [<-|[Hx|Hx]].
    + split; [exists p; split; auto; rewrite Pm; simpl; auto|]. intros y Hy. rewrite Pm in Hy.
      destruct Hy as [<-|[<-|[<-|[]]]]; auto; right; [destruct l|destruct r]; simpl in *; tauto.
    + eapply IHl; eauto.
    + eapply IHr; eauto.
Qed.
Lemma pars_view n A P a b : view n A a b -> pars P (uid b) a -> pars P (uid a) b -> par_ok A P.
Proof.
  intros (Ha & Hb & _ & Cov & _) Qa Qb.
  assert (K : forall x, A x <> [] -> (exists q, P x = Some q /\ In q (A x)) /\ forall y, In y (A x) -> P x = Some y \/ P y = Some x).
  { intros x Hx. apply Cov, in_app_iff in Hx as [Hx|Hx]; [apply (@pars_edges n A P a (uid b) Ha Qa _ Hx)|apply (@pars_edges n A P b (uid a) Hb Qb _ Hx)]. }
  split; [|intros x Hx; apply K; auto]. intros x y Hy. apply K; auto. intros E. rewrite E in Hy. destruct Hy.
Qed.

(** ** the recursion of get_internal_path *)
Fixpoint steps (t : ut) : list (nat * nat * nat) :=
  match t with UL _ => [] | UN v l r => steps l ++ steps r ++ [(uid l, uid r, v)] end.
Fixpoint height (t : ut) : nat := match t with UL _ => 0 | UN _ l r => S (Nat.max (height l) (height r)) end.
Lemma height_lvs t : S (height t) <= length (lvs t).
Proof. induction t; simpl; auto. rewrite app_length. lia. Qed.

Lemma filter_out p l : ~ In p l -> filter (fun c => negb (c =? p)) l = l.
Proof.
  induction l as [|x r IH]; simpl; intros H; auto. destruct (Nat.eqb_spec x p); [subst; tauto|]. simpl. f_equal. tauto.
Qed.
Lemma perm_filter p l r : ~ In p r -> Permutation l (p :: r) -> Permutation (filter (fun c => negb (c =? p)) l) r.
Proof.
  intros N P. assert (Q : forall a b, Permutation a b -> Permutation (filter (fun c => negb (c =? p)) a) (filter (fun c => negb (c =? p)) b)).
  { induction 1; simpl; auto; repeat match goal with |- context [negb ?c] => destruct c; simpl end; try constructor; auto.
    eapply Permutation_trans; eauto. }
  apply Q in P. simpl in P. rewrite Nat.eqb_refl in P. simpl in P. rewrite (filter_out _ _ N) in P. auto.
Qed.
Lemma perm_two {A} (l : list A) a b : Permutation l [a; b] -> l = [a; b] \/ l = [b; a].
Proof. intros P. apply Permutation_sym, Permutation_length_2_inv in P. auto. Qed.
Lemma others_two adj v p a b : p <> a -> p <> b -> Permutation (nbs adj v) [p; a; b] ->
  others adj v p = [a; b] \/ others adj v p = [b; a].
Proof. intros Na Nb P. apply perm_two. apply perm_filter; auto. simpl. intuition. Qed.

Definition like (t t' : ut) : Prop :=
  uid t' = uid t /\ Permutation (ids t') (ids t) /\ Permutation (lvs t') (lvs t) /\ swapped (shape t) (shape t').
Lemma like_refl t : like t t.
Proof. repeat split; auto. apply swapped_shape. Qed.
Lemma internal_path_ok n adj par t : forall p fuel, hang n (nbs adj) p t -> pars (fun x => get x par) p t -> NoDup (p :: ids t) -> height t <= fuel ->
  exists t', like t t' /\ internal_path fuel n adj par (uid t) = Ok (steps t').
Proof.
  induction t as [i|v l IHl r IHr]; intros p fuel H Q ND F.
  - exists (UL i). split; [apply like_refl|]. destruct H as [H _]. cbn [uid]. unfold internal_path, is_leaf.
    destruct fuel; rewrite (proj2 (Nat.ltb_lt _ _) H); auto.
  - pose proof H as (N & Pm & Hl & Hr). destruct Q as (Q & Ql & Qr). cbn [ids] in ND.
    inversion ND as [|? ? Np ND1]; subst. inversion ND1 as [|? ? Nv ND2]; subst. rewrite in_app_iff in Nv. apply NoDup_app_iff in ND2 as (Nl & Nr & D).
    simpl in Np. rewrite in_app_iff in Np. pose proof (uid_in l) as Tl. pose proof (uid_in r) as Tr.
    destruct fuel as [|fuel]; [cbn in F; lia|]. cbn [height] in F.
    destruct (IHl v fuel Hl Ql) as (l' & (L1 & L2 & L3 & L4) & El); [constructor; auto|lia|].
    destruct (IHr v fuel Hr Qr) as (r' & (R1 & R2 & R3 & R4) & Er); [constructor; auto|lia|].
    cbn [uid] in Q |- *. cbn [internal_path]. unfold is_leaf at 1. rewrite (proj2 (Nat.ltb_ge _ _) N). rewrite Q.
    destruct (@others_two adj v p (uid l) (uid r)) as [E|E]; auto; try (intros ->; tauto); rewrite E.
    + exists (UN v l' r'). split; [|rewrite El; cbn [bind]; rewrite Er; cbn [bind steps]; rewrite L1, R1; auto].
      split; [auto|]. split; [simpl; now rewrite L2, R2|]. split; [simpl; now rewrite L3, R3|]. simpl. constructor; auto.
    + exists (UN v r' l'). split; [|rewrite Er; cbn [bind]; rewrite El; cbn [bind steps]; rewrite L1, R1; auto].
      split; [auto|]. split; [simpl; rewrite L2, R2; apply perm_skip, Permutation_app_comm|].
      split; [simpl; rewrite L3, R3; apply Permutation_app_comm|]. simpl. apply sw_swap; auto.
Qed.

(** ** the loop of get_path *)
Fixpoint vto (n : nat) (p : lpath) (m : nat) : Prop :=
  match p with
  | [] => n = m
  | s :: r => length s = 2 /\ NoDup s /\ Forall (fun i => i < n) s /\ vto (n - 2 + 1) r m
  end.
Lemma vto_app p : forall n q k m, vto n p k -> vto k q m -> vto n (p ++ q) m.
Proof.
  induction p as [|s r IH]; simpl; intros n q k m H K; [subst; auto|]. destruct H as (H1 & H2 & H3 & H4). repeat split; auto. eapply IH; eauto.
Qed.
Lemma vto_valid p : forall n, vto n p 1 -> valid_lin n p /\ pairwise p.
Proof.
  induction p as [|s r IH]; simpl; intros n H; [split; [auto|constructor]|]. destruct H as (H1 & H2 & H3 & H4). destruct (IH _ H4) as [V W].
  split; [|constructor; auto]. split; [intros ->; discriminate|]. split; auto. split; auto. now rewrite H1.
Qed.
Lemma lin_run_app {A} (node : list A -> A) p : forall l q m, lin_run node l p = Some m -> lin_run node l (p ++ q) = lin_run node m q.
Proof.
  induction p as [|s r IH]; simpl; intros l q m H; [congruence|]. destruct (picks s l); [|discriminate]. apply IH; auto.
Qed.

Lemma remove_filter x l : remove Nat.eq_dec x l = filter (fun y => negb (y =? x)) l.
Proof.
  induction l as [|y r IH]; simpl; auto. destruct (Nat.eq_dec x y), (Nat.eqb_spec y x); try congruence; simpl; congruence.
Qed.
Lemma filter_filter2 {A} (f g : A -> bool) l : filter f (filter g l) = filter (fun x => g x && f x) l.
Proof. induction l as [|x r IH]; simpl; auto. destruct (g x); simpl; [destruct (f x); simpl|]; congruence. Qed.
Lemma in_index (t : ut) ops : NoDup (map uid ops) -> In t ops ->
  exists i, list_index (uid t) (map uid ops) = Ok i /\ nth_error ops i = Some t /\ i < length ops.
Proof.
  intros ND I. exists (index_of (uid t) (map uid ops)). unfold list_index.
  assert (J : In (uid t) (map uid ops)) by now apply in_map. rewrite (proj2 (mem_In _ _) J). split; auto.
  destruct (In_nth_error _ _ I) as (k & Hk). assert (K : nth_error (map uid ops) k = Some (uid t)) by now rewrite nth_error_map, Hk.
  rewrite (@nth_error_NoDup_index _ _ _ _ _ ND K). split; auto. apply nth_error_Some. congruence.
Qed.
Lemma path_step (l r : ut) v ops rest : NoDup (map uid ops) -> Permutation ops (r :: l :: rest) ->
  exists i j ops', list_index (uid l) (map uid ops) = Ok i /\ list_index (uid r) (map uid ops) = Ok j /\
    remove Nat.eq_dec (uid r) (remove Nat.eq_dec (uid l) (map uid ops)) ++ [v] = map uid (ops' ++ [UN v l r]) /\
    Permutation (ops' ++ [UN v l r]) (UN v l r :: rest) /\
    picks [i; j] (map shape ops) = Some [shape l; shape r] /\
    keep_except [i; j] (map shape ops) = map shape ops' /\
    NoDup [i; j] /\ Forall (fun k => k < length ops) [i; j].
Proof.
  intros ND P.
  destruct (@in_index l ops ND) as (i & Ei & Ni & Li); [rewrite P; simpl; auto|].
  destruct (@in_index r ops ND) as (j & Ej & Nj & Lj); [rewrite P; simpl; auto|].
  assert (NDp : NoDup (map uid (r :: l :: rest))) by (rewrite <- (Permutation_map uid P); auto).
  simpl in NDp. inversion NDp as [|? ? N1 ND1]; subst. inversion ND1 as [|? ? N2 ND2]; subst. simpl in N1.
  assert (Nij : i <> j). { intros ->. rewrite Ni in Nj. injection Nj as ->. tauto. }
  exists i, j, (keep_except [i; j] ops). split; auto. split; auto.
  assert (K : map uid (keep_except [i; j] ops) = filter (fun x => negb (mem x [uid l; uid r])) (map uid ops)).
  { unfold keep_except. rewrite <- keep_map. apply (@keep_picks _ _ [i; j] (map uid ops) [uid l; uid r]); auto.
    simpl. rewrite !nth_error_map, Ni, Nj. auto. }
  split.
  { rewrite map_app, K. f_equal. rewrite !remove_filter, filter_filter2. apply filter_ext. intros x. simpl. change (@eqb nat _) with Nat.eqb.
    destruct (x =? uid l), (x =? uid r); reflexivity. }
  split.
  { rewrite <- Permutation_cons_append. apply perm_skip.
    apply Permutation_cons_inv with (a := l). apply Permutation_cons_inv with (a := r). rewrite <- P.
    assert (Q : forall (o : list ut) i j, i < j -> nth_error o i = Some l -> nth_error o j = Some r -> Permutation (r :: l :: keep_except [i; j] o) o).
    { clear. intros o i j Hij Hi Hj. pose proof (nth_error_split _ _ Hi) as (o1 & o2 & -> & L1).
      assert (Hj' : nth_error o2 (j - S (length o1)) = Some r).
      { rewrite nth_error_app2 in Hj by lia. destruct (j - length o1) as [|k] eqn:E; [lia|]. simpl in Hj. replace (j - S (length o1)) with k by lia. auto. }
      pose proof (nth_error_split _ _ Hj') as (o3 & o4 & -> & L2).
      unfold keep_except. rewrite keep_app. rewrite keep_none; [|intros k Hk [E|[E|[]]]; lia]. simpl.
      rewrite <- L1. simpl. change (@eqb nat _) with Nat.eqb. rewrite Nat.eqb_refl. rewrite keep_app. rewrite keep_none; [|intros k Hk [E|[E|[]]]; lia]. simpl.
      change (@eqb nat _) with Nat.eqb. replace (S (length o1 + length o3) =? length o1) with false by (symmetry; apply Nat.eqb_neq; lia).
      replace (S (length o1 + length o3) =? j) with true by (symmetry; apply Nat.eqb_eq; lia). simpl.
      rewrite keep_none; [|intros k Hk [E|[E|[]]]; lia].
      rewrite <- !Permutation_middle. apply perm_swap. }
    destruct (Nat.lt_ge_cases i j) as [Lt|Ge]; [apply Q; auto|].
    assert (Hji : j < i) by lia. 
    assert (Q2 : forall (o : list ut) i j, j < i -> nth_error o i = Some l -> nth_error o j = Some r -> Permutation (r :: l :: keep_except [i; j] o) o).
    { clear. intros o j i Hij Hi Hj. pose proof (nth_error_split _ _ Hj) as (o1 & o2 & -> & L1).
      assert (Hj' : nth_error o2 (j - S (length o1)) = Some l).
      { rewrite nth_error_app2 in Hi by lia. destruct (j - length o1) as [|k] eqn:E; [lia|]. simpl in Hi. replace (j - S (length o1)) with k by lia. auto. }
      pose proof (nth_error_split _ _ Hj') as (o3 & o4 & -> & L2).
      unfold keep_except. rewrite keep_app. rewrite keep_none; [|intros k Hk [E|[E|[]]]; lia]. simpl.
      rewrite <- L1. simpl. change (@eqb nat _) with Nat.eqb. rewrite Nat.eqb_refl. replace (length o1 =? j) with false by (symmetry; apply Nat.eqb_neq; lia). simpl.
      rewrite keep_app. rewrite keep_none; [|intros k Hk [E|[E|[]]]; lia]. simpl.
      change (@eqb nat _) with Nat.eqb. replace (S (length o1 + length o3) =? j) with true by (symmetry; apply Nat.eqb_eq; lia). simpl.
      rewrite keep_none; [|intros k Hk [E|[E|[]]]; lia].
      rewrite <- !Permutation_middle. reflexivity. }
    apply Q2; auto. }
  split; [simpl; rewrite !nth_error_map, Ni, Nj; auto|]. split; [unfold keep_except; apply keep_map|].
  split; [constructor; [simpl; intuition|constructor; [simpl; auto|constructor]]|]. repeat constructor; auto.
Qed.
Lemma lvs_ids_in t x : In x (lvs t) -> In x (ids t).
Proof. induction t; simpl; auto. rewrite !in_app_iff. tauto. Qed.
Lemma lvs_NoDup t : NoDup (ids t) -> NoDup (lvs t).
Proof.
  induction t as [|v l IHl r IHr]; simpl; intros H; auto. inversion H as [|? ? _ H']; subst. apply NoDup_app_iff in H' as (Nl & Nr & D).
  apply NoDup_app_iff. repeat split; auto. intros x Hx Hy. apply (D x); apply lvs_ids_in; auto.
Qed.
Lemma path_steps_app l1 : forall ops l2 r1, path_steps ops l1 = Ok r1 ->
  path_steps ops (l1 ++ l2) = do r2 <- path_steps (fst r1) l2; Ok (fst r2, snd r1 ++ snd r2).
Proof.
  induction l1 as [|[[c0 c1] v] r IH]; simpl; intros ops l2 r1 H.
  - injection H as <-. simpl. destruct (path_steps ops l2) as [[? ?]|]; auto.
  - destruct (list_index c0 ops); [|discriminate]. cbn [bind] in *. destruct (list_index c1 ops); [|discriminate]. cbn [bind] in *.
    destruct (path_steps _ r) as [q|] eqn:E; [|discriminate]. cbn [bind] in *. injection H as <-. rewrite (IH _ l2 _ E). cbn [bind fst snd].
    destruct (path_steps (fst q) l2); auto.
Qed.
Lemma path_steps_ok t : forall ops rest, NoDup (map uid ops) -> NoDup (ids t ++ map uid rest) -> Permutation ops (map UL (lvs t) ++ rest) ->
  exists ops' q, path_steps (map uid ops) (steps t) = Ok (map uid ops', q) /\ Permutation ops' (t :: rest) /\ NoDup (map uid ops') /\
    lin_run PNode (map shape ops) q = Some (map shape ops') /\ vto (length ops) q (length ops').
Proof.
  induction t as [i|v l IHl r IHr]; intros ops rest NO NI P.
  - exists ops, []. simpl. repeat split; auto.
  - cbn [ids] in NI. simpl in NI. inversion NI as [|? ? Nv NI1]; subst. rewrite <- app_assoc in NI1. rewrite !in_app_iff in Nv.
    apply NoDup_app_iff in NI1 as (Nl & NI2 & D1). apply NoDup_app_iff in NI2 as (Nr & Nrest & D2).
    assert (DL : forall x, In x (ids l) -> ~ In x (ids r) /\ ~ In x (map uid rest)) by (intros x Hx; specialize (D1 x Hx); rewrite in_app_iff in D1; tauto).
    assert (UL_map : forall k : list nat, map uid (map UL k) = k) by (intros k; rewrite map_map; apply map_id).
    destruct (IHl ops (map UL (lvs r) ++ rest)) as (o1 & q1 & E1 & P1 & N1 & R1 & V1); auto.
    { rewrite map_app, UL_map. apply NoDup_app_iff. split; auto. split.
      - apply NoDup_app_iff. split; [now apply lvs_NoDup|]. split; auto. intros x Hx. apply D2. now apply lvs_ids_in.
      - intros x Hx Hy. apply in_app_iff in Hy as [Hy|Hy]; destruct (DL x Hx); auto. apply lvs_ids_in in Hy. auto. }
    { rewrite P. simpl. rewrite map_app, <- app_assoc. auto. }
    destruct (IHr o1 (l :: rest)) as (o2 & q2 & E2 & P2 & N2 & R2 & V2); auto.
    { simpl. apply NoDup_app_iff. split; auto. split.
      - constructor; auto. apply DL. apply uid_in.
      - intros x Hx [<-|Hy]; [apply (proj1 (DL _ (uid_in l))); auto|apply (D2 x); auto]. }
    { rewrite P1. apply Permutation_middle. }
    destruct (@path_step l r v o2 rest N2 P2) as (i & j & o3 & I1 & I2 & I3 & I4 & I5 & I6 & I7 & I8).
    exists (o3 ++ [UN v l r]), (q1 ++ q2 ++ [[i; j]]).
    split.
    { cbn [steps]. rewrite (path_steps_app _ _ _ E1). cbn [fst snd]. rewrite (path_steps_app _ _ _ E2). cbn [fst snd path_steps].
      rewrite I1. cbn [bind]. rewrite I2. cbn [bind]. rewrite I3. reflexivity. }
    split; auto. split.
    { rewrite (Permutation_map uid I4). simpl. constructor; auto. }
    split.
    { rewrite (lin_run_app _ _ _ _ R1). rewrite (lin_run_app _ _ _ _ R2). cbn [lin_run]. rewrite I5, I6. rewrite map_app. reflexivity. }
    eapply vto_app; eauto. eapply vto_app; eauto. cbn [vto]. split; auto. split; auto. split; auto.
    rewrite (Permutation_length I4), (Permutation_length P2). simpl. lia.
Qed.

Theorem get_path_ok t a b : view (u_n t) (nbs (u_adj t)) a b -> (uid a, uid b) = u_root t ->
  par_ok (nbs (u_adj t)) (fun x => get x (u_par t)) -> get (uid a) (u_par t) = Some (uid b) -> get (uid b) (u_par t) = Some (uid a) ->
  exists q T, get_path t = Ok q /\ valid_lin (u_n t) q /\ pairwise q /\ lin_tree (u_n t) q = Some T /\ swapped (vshape a b) T.
Proof.
  intros V R K Pa Pb. pose proof V as (Ha & Hb & ND & Cov & Lv). pose proof (Permutation_length Lv) as Ln. rewrite app_length, seq_length in Ln.
  pose proof (height_lvs a) as La. pose proof (height_lvs b) as Lb.
  apply NoDup_app_iff in ND as (Na & Nb & D).
  assert (NDa : NoDup (uid b :: ids a)). { constructor; auto. intros I. apply (D _ I). apply uid_in. }
  assert (NDb : NoDup (uid a :: ids b)). { constructor; auto. apply D. apply uid_in. }
  destruct (@internal_path_ok (u_n t) (u_adj t) (u_par t) a (uid b) (2 * u_n t)) as (a' & (A1 & A2 & A3 & A4) & Ea); auto; [eapply pars_of; eauto|lia|].
  destruct (@internal_path_ok (u_n t) (u_adj t) (u_par t) b (uid a) (2 * u_n t)) as (b' & (B1 & B2 & B3 & B4) & Eb); auto; [eapply pars_of; eauto|lia|].
  assert (UL_map : forall k : list nat, map uid (map UL k) = k) by (intros k; rewrite map_map; apply map_id).
  assert (Na' : NoDup (ids a')) by (rewrite A2; auto). assert (Nb' : NoDup (ids b')) by (rewrite B2; auto).
  assert (D' : forall x, In x (ids a') -> ~ In x (ids b')). { intros x Hx Hy. rewrite A2 in Hx. rewrite B2 in Hy. eapply D; eauto. }
  destruct (@path_steps_ok a' (map UL (seq 0 (u_n t))) (map UL (lvs b'))) as (o1 & q1 & E1 & P1 & N1 & R1 & V1).
  { rewrite UL_map. apply seq_NoDup. }
  { rewrite UL_map. apply NoDup_app_iff. split; auto. split; [now apply lvs_NoDup|]. intros x Hx Hy. apply (D' x); auto. now apply lvs_ids_in. }
  { rewrite <- map_app. apply Permutation_map. rewrite A3, B3. symmetry. auto. }
  destruct (@path_steps_ok b' o1 [a']) as (o2 & q2 & E2 & P2 & N2 & R2 & V2); auto.
  { simpl. apply NoDup_app_iff. split; auto. split; [constructor; auto; constructor|]. intros x Hx [<-|[]]. apply (D' (uid a')); auto. apply uid_in. }
  { rewrite P1. apply Permutation_cons_append. }
  rewrite UL_map in E1. assert (Lo2 : length o2 = 2) by (now rewrite (Permutation_length P2)).
  assert (VT : vto (u_n t) (q1 ++ q2 ++ [[0; 1]]) 1).
  { rewrite map_length, seq_length in V1. eapply vto_app; eauto. eapply vto_app; eauto. rewrite Lo2. simpl. repeat split; auto; repeat constructor; simpl; try lia. }
  assert (RT : lin_run PNode (map PLeaf (seq 0 (u_n t))) (q1 ++ q2 ++ [[0; 1]]) = lin_run PNode (map shape o2) [[0; 1]]).
  { rewrite map_map in R1. simpl in R1. rewrite (lin_run_app _ _ _ _ R1), (lin_run_app _ _ _ _ R2). auto. }
  destruct (vto_valid _ _ VT) as [V3 V4].
  assert (G : get_path t = Ok (q1 ++ q2 ++ [[0; 1]])).
  { unfold get_path. rewrite <- R. cbn [fst snd]. rewrite Ea. cbn [bind]. rewrite E1. cbn [bind fst snd]. rewrite Eb. cbn [bind]. rewrite E2. reflexivity. }
  unfold lin_tree. 
  destruct (perm_two P2) as [-> | ->]; simpl in RT.
  - exists (q1 ++ q2 ++ [[0; 1]]), (PNode [shape b'; shape a']). rewrite RT. split; auto. split; auto. split; auto. split; auto. apply sw_swap; auto.
  - exists (q1 ++ q2 ++ [[0; 1]]), (PNode [shape a'; shape b']). rewrite RT. split; auto. split; auto. split; auto. split; auto. apply sw_keep; auto.
Qed.
