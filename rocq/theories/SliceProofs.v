(** * Slicing a network: rounds of the slicer *)
From Coq Require Import List Arith ZArith Lia Bool Permutation.
From Verif Require Import Base PathSpec UctSpec NetSpec ModelArray ArrayProofs ModelTN TNInv TNOps TNExact ModelContract ContractNet ModelOrder ModelOpt OptProofs ModelUct ModelScheme ModelSlice SliceStem OrderProofs OrderProofs2 OrderProofs3 OrderNet OrderSpec.
Import ListNotations.
Set Implicit Arguments.
Open Scope nat_scope.

(** ** orders and paths *)
Lemma lin_length p : forall n, valid_lin n p -> UctSpec.pairwise p -> n = S (length p).
Proof.
  induction p as [|s p IH]; cbn [valid_lin length]; intros n V P; [auto|]. inversion P as [|? ? L P']; subst. destruct V as (_ & N & F & V). apply IH in V; auto. destruct s as [|i [|j [|]]]; try discriminate. inversion N as [|? ? Ni _]; subst. inversion F as [|? ? Hi F']; subst. inversion F' as [|? ? Hj _]; subst. assert (i <> j) by (intros ->; apply Ni; left; auto). cbn [length] in V. lia.
Qed.
Lemma lin_of_path p : forall n, valid_path n p -> valid_lin n (map (fun q => [fst q; snd q]) p) /\ UctSpec.pairwise (map (fun q : nat * nat => [fst q; snd q]) p).
Proof.
  induction p as [|[i j] p IH]; cbn [map valid_path valid_lin fst snd]; intros n V; [split; [auto|constructor]|].
  destruct V as (N & Hi & Hj & V). destruct (IH _ V) as [V' P']. split.
  - split; [discriminate|]. split; [constructor; [intros [E|[]]; auto|constructor; [intros []|constructor]]|]. split; [repeat constructor; auto|]. cbn [length]. replace (n - 2 + 1) with (n - 1) by lia. auto.
  - constructor; auto.
Qed.
Lemma pairwise_operands o : OrderSpec.pairwise o -> length (operands o) = 2 * length o.
Proof.
  induction o as [|s o IH]; intros P; [auto|]. inversion P as [|? ? L P']; subst. unfold operands in *. cbn [map concat length]. rewrite app_length, IH, L; auto. lia.
Qed.
Lemma complete_length leaves o fin : complete_order leaves o fin -> OrderSpec.pairwise o -> length leaves = S (length o).
Proof.
  intros C P. pose proof (Permutation_length (co_once C)) as L. rewrite (pairwise_operands P), app_length in L. destruct (co_last C) as (o' & l & E).
  rewrite E in *. rewrite removelast_results in L. unfold results in L. rewrite map_length in L. rewrite app_length in *. cbn [length] in *. lia.
Qed.
Lemma rename_ok p : forall names zs, valid_lin (length names) p -> UctSpec.pairwise p -> length zs = length p ->
  exists o w, rename_path names zs p = Ok o /\ OrderSpec.pairwise o /\ results o = zs /\ red names o [w].
Proof.
  induction p as [|s p IH]; intros names zs V P L.
  - destruct zs; [|discriminate]. cbn [valid_lin] in V. destruct names as [|w [|]]; try discriminate. exists [], w. split; auto. split; [constructor|]. split; auto. cbn [red]. auto.
  - inversion P as [|? ? Ls P']; subst. destruct s as [|i [|j [|]]]; try discriminate. destruct V as (_ & N & F & V). inversion N as [|? ? Ni _]; subst. inversion F as [|? ? Hi F']; subst. inversion F' as [|? ? Hj _]; subst.
    destruct zs as [|z zs]; [discriminate|]. cbn [length] in L, V.
    destruct (@pop_two names i j Hi Hj) as (x & y & a & b & Ex & Ey & Ea & Eb & Pm & Lb). { intros ->. apply Ni. left. auto. }
    cbn [rename_path]. rewrite Ex, Ey, Ea. cbn [bind]. rewrite Eb. cbn [bind].
    destruct (IH (snd b ++ [z]) zs) as (o & w & E & Po & Ro & Rd); auto. { rewrite app_length. cbn [length]. replace (length (snd b) + 1) with (length names - 2 + 1) by lia. auto. }
    rewrite E. cbn [bind]. exists (([x; y], z) :: o), w. split; auto. split; [constructor; auto|]. split; [unfold results in *; cbn [map snd]; congruence|].
    cbn [red]. exists (snd b). split; auto. eapply red_perm_l; [|exact Rd]. symmetry. apply Permutation_cons_append.
Qed.
Definition good_order (leaves : list name) (o : gorder) : Prop := complete_order leaves o hash /\ OrderSpec.pairwise o /\ Forall readable (operands o).
Lemma rename_good leaves o q : good_order leaves o -> valid_lin (length leaves) q -> UctSpec.pairwise q ->
  exists o', rename_path leaves (map snd o) q = Ok o' /\ good_order leaves o'.
Proof.
  intros (C & P & R) V W. pose proof (complete_length C P) as L. pose proof (lin_length _ V W) as L'.
  destruct (@rename_ok q leaves (map snd o) V W) as (o' & w & E & P' & Ro & Rd). { rewrite map_length. apply eq_add_S. etransitivity; [symmetry; exact L|exact L']. }
  exists o'. split; auto. assert (Ne : o' <> []). { intros ->. destruct (co_last C) as (o0 & l & ->). rewrite map_app in Ro. destruct o0; discriminate Ro. }
  assert (Ew : w = hash).
  { destruct (red_last _ _ Rd Ne) as (o1 & l & z & E1 & [Iz|[]]). subst z. destruct (co_last C) as (o0 & l0 & E0). change (map snd o) with (results o) in Ro.
    rewrite E1, E0, !results_app in Ro. cbn in Ro. apply app_inj_tail in Ro. apply Ro. }
  subst w. assert (C' : complete_order leaves o' hash). { apply red_complete; auto. rewrite Ro. apply (co_names C). }
  split; auto. split; auto. rewrite Forall_forall in *. intros x Hx. apply R.
  eapply Permutation_in; [symmetry; apply (co_once C)|]. change (results o) with (map snd o). rewrite <- Ro. eapply Permutation_in; [apply (co_once C')|exact Hx].
Qed.
Lemma optimize_good max_size rounds : forall leaves o, good_order leaves o -> Forall (fun r => good_paths (snd r)) rounds ->
  exists o', optimize rounds max_size o = Ok o' /\ good_order leaves o'.
Proof.
  induction rounds as [|[[size offset] sp] r IH]; intros leaves o (C & Pw & Rd) G; [exists o; split; [auto|split; auto]|].
  inversion G as [|? ? G1 G2]; subst. cbn [snd] in G1. cbn [optimize].
  destruct (@flatten_ok size max_size offset leaves o hash C) as (f & Ef & Cf & Sb). rewrite Ef. cbn [bind].
  assert (W : wide_steps f).
  { eapply flat_loop_wide; [apply Ef|]. unfold OrderSpec.pairwise, wide_steps in *. eapply Forall_impl; [|apply Pw]. simpl. intros; lia. }
  assert (Rf : Forall readable (operands f)).
  { apply Forall_forall. intros x I. rewrite Forall_forall in Rd.
    assert (J : In x (leaves ++ results o)).
    { apply in_or_app. destruct (operands_in _ Cf I) as [J|J]; auto. right. apply (Sb x J). }
    destruct (results_used _ C J) as [K|K]; auto. subst x. intros v Q; discriminate Q. }
  destruct (good_wide G1 W) as [V P].
  destruct (@scheme_ok sp leaves f Cf Rf V) as (o1 & E1 & C1 & _ & R1 & P1). rewrite E1. cbn [bind].
  apply IH; auto. split; auto.
Qed.
Lemma resolve_good sp leaves o : good_order leaves o -> good_paths sp -> exists o', order_to_contraction_scheme sp o = Ok o' /\ good_order leaves o'.
Proof.
  intros (C & P & R) G. destruct (pairwise_good G P) as [V PP]. destruct (@scheme_ok sp leaves o C R V) as (o1 & E1 & C1 & _ & R1 & P1). exists o1. split; auto. split; auto.
Qed.

(** ** the network of a round *)
Section Net.
  Context {T : Type} `{PT : Payload T}.
  Notation net := (tn T).
  Implicit Types (n m : net) (e : name).
  (** some node has the leg [e] *)
  Definition leg n e : Prop := exists x nd, get x (nodes n) = Some nd /\ In e (n_legs nd).
  (** every leg has a dimension, not 0 *)
  Definition sized n : Prop := forall e, leg n e -> exists d, edim n e = Some (S d).
  Lemma fix_all_legs n : wf n -> wf (fix_all n) /\ keys (nodes (fix_all n)) = keys (nodes n) /\
    (forall e, leg (fix_all n) e -> leg n e /\ fixedb n e = false /\ edim (fix_all n) e = edim n e) /\
    (forall e, leg n e -> fixedb n e = false -> leg (fix_all n) e /\ fixedb (fix_all n) e = false).
  Proof.
    intros W. destruct (fix_all_spec W) as (W' & O & [K St] & E & A). split; auto. split; auto.
    assert (Ge : forall e ed, get e (edges n) = Some ed -> fixedb n e = false -> get e (edges (fix_all n)) = Some ed).
    { intros e ed Ge F. apply In_get; [apply (wf_edges W')|]. rewrite E. apply filter_In; split; [apply get_In; auto|cbn [fst]; rewrite F; now rewrite orb_true_r]. }
    split.
    2: { intros e (x & nd & G & I) F. split.
         - specialize (St x). rewrite G in St. destruct (get x (nodes (fix_all n))) as [nd1|] eqn:G1; [|destruct St]. exists x, nd1. split; auto. destruct St as [-> _]. apply filter_In. now rewrite F.
         - destruct (key_get _ _ (wf_legs W x _ G I)) as (ed & G1). unfold fixedb in *. rewrite (Ge _ _ G1 F). rewrite G1 in F. auto. }
    intros e (x & nd & G & I). specialize (St x). rewrite G in St. destruct (get x (nodes n)) as [nd0|] eqn:G0; [|destruct St].
    destruct St as [L _]. rewrite L in I. apply filter_In in I as [I F]. apply negb_true_iff in F. split; [exists x, nd0; auto|]. split; auto.
    unfold edim. destruct (key_get _ _ (wf_legs W x _ G0 I)) as (ed & G1). rewrite (Ge _ _ G1 F), G1. auto.
  Qed.
  Lemma wf_copy n : wf n -> wf (copy_tn n).
  Proof. intros [W1 W2 W3 W4 W5 W6 W7]. constructor; auto. Qed.
  Lemma fix_list_ok l : forall n, wf n -> (forall e, In e l -> exists d, edim n e = Some (S d)) ->
    exists n1, foreach (fun e => fix_edge e [0] false) l n = (n1, Ok tt) /\ wf n1 /\ nodes n1 = nodes n /\
      (forall e, edim n1 e = edim n e) /\ (forall e, fixedb n1 e = (mem e l || fixedb n e)%bool).
  Proof.
    induction l as [|e l IH]; intros n W H; [exists n; auto 10|].
    destruct (H e (or_introl eq_refl)) as (d & D).
    assert (Q : exists n1, fix_edge e [0] false n = (n1, Ok tt) /\ nodes n1 = nodes n /\ (forall a, edim n1 a = edim n a) /\ (forall a, fixedb n1 a = (eqb a e || fixedb n a)%bool)).
    { unfold edim in D. destruct (get e (edges n)) as [ed|] eqn:G; [|discriminate]. unfold fix_edge, mbind, getst. rewrite G, D. cbn [forallb Nat.ltb Nat.leb andb].
      destruct (e_fix ed) as [old|] eqn:Fx; cbn [modify]; eexists; (split; [reflexivity|]); (split; [reflexivity|]); unfold edim, fixedb; cbn [edges with_edges]; split; intros a; rewrite get_set;
        destruct (eqb_spec a e) as [->|]; cbn [orb e_dim e_fix]; rewrite ?G; auto. }
    destruct Q as (n1 & E1 & N1 & D1 & F1). pose proof (fix_edge_wf _ _ _ E1 W) as W1.
    destruct (IH n1 W1) as (n2 & E2 & W2 & N2 & D2 & F2). { intros a Ha. rewrite D1. apply H. right. auto. }
    exists n2. split; [cbn [foreach]; unfold mbind; rewrite E1; exact E2|]. split; auto. split; [congruence|]. split; [congruence|].
    intros a. rewrite F2, F1. cbn [mem existsb]. unfold mem. destruct (existsb (eqb a) l), (eqb a e); auto.
  Qed.
  (** what a network [n] of a later round has to do with the network [n0] given, [es] being the edges sliced so far *)
  Definition left_over n0 (es : list name) n : Prop :=
    wf n /\ keys (nodes n) = keys (nodes n0) /\
    (forall e, leg n e -> leg n0 e /\ ~ In e es /\ edim n e = edim n0 e /\ (fixedb n0 e = true -> fixedb n e = true)) /\
    (forall e, leg n0 e -> ~ In e es -> fixedb n0 e = false -> leg n e /\ fixedb n e = false).
  Lemma left_over_refl n : wf n -> left_over n [] (copy_tn n).
  Proof. intros W. split; [apply wf_copy; auto|]. split; auto. Qed.
  Lemma left_over_step n0 es n l : sized n0 -> left_over n0 es n -> (forall e, In e l -> leg n e) ->
    exists n1, run_net (foreach (fun a => fix_edge a [0] false) l) n = Ok (n1, tt) /\ left_over n0 (es ++ l) (fix_all n1).
  Proof.
    intros Z (W & K & H & J) L. destruct (@fix_list_ok l n W) as (n1 & E1 & W1 & N1 & D1 & F1).
    { intros e He. destruct (H e (L e He)) as (L0 & _ & D & _). rewrite D. apply Z. auto. }
    exists n1. unfold run_net. rewrite E1. split; auto. destruct (fix_all_legs W1) as (W2 & K2 & H2 & J2). split; auto. split; [congruence|]. split.
    2: { intros e L0 Ne F0. rewrite in_app_iff in Ne. destruct (J e) as [(x & nd & G & I) Fn]; auto. apply J2.
         - exists x, nd. rewrite N1. auto.
         - rewrite F1, Fn. destruct (mem e l) eqn:M; auto. apply mem_In in M. tauto. }
    intros e He. destruct (H2 e He) as ((x & nd & G & I) & Fx & D2). rewrite N1 in G. assert (Le : leg n e) by (exists x, nd; auto). destruct (H e Le) as (L0 & Ne & D & Fk).
    rewrite F1 in Fx. apply orb_false_iff in Fx as [Ml Fn]. split; auto. split; [|split; [rewrite D2, D1; auto|]].
    - rewrite in_app_iff. intros [X|X]; [auto|]. apply mem_In in X. congruence.
    - intros F0. rewrite (Fk F0) in Fn. discriminate.
  Qed.

  (** ** slicer.py:83-209 *)
  Variable sord : list nat -> list nat.
  Variable accept : Z -> Z -> bool.
  Hypothesis Hsord : forall l x, In x (sord l) <-> In x l.
  Lemma bwe_ok n o : wf n -> good_order (keys (nodes n)) o ->
    (exists es o', biggest_weight_edge sord accept n o = Ok (es, o') /\ es <> [] /\ length es <= 10 /\ (forall e, In e es -> leg n e /\ fixedb n e = false) /\
       good_order (keys (nodes n)) o') \/
    biggest_weight_edge sord accept n o = Err IndexError.
  Proof.
    intros W GO. unfold biggest_weight_edge. destruct (fix_all_legs (wf_copy W)) as (W' & K & H & _). set (m := fix_all (copy_tn n)) in *.
    change (keys (nodes (copy_tn n))) with (keys (nodes n)) in K. rewrite <- K in GO.
    pose proof GO as (C & P & R). destruct (order_to_path_ok C P) as (p & Ep & Vp). rewrite Ep. cbn [bind].
    destruct (lin_of_path _ _ Vp) as [Vl Wl]. pose proof (complete_length C P) as Lo.
    assert (Ll : length (map (fun q => edge_syms m (n_legs (snd q))) (nodes m)) = length (keys (nodes m))) by (unfold keys; now rewrite !map_length).
    destruct (co_last C) as (o0 & l0 & Eo). assert (1 <= length o) by (rewrite Eo, app_length; cbn [length]; lia).
    destruct (@slice_tree_ok sord accept (map (fun q => edge_syms m (n_legs (snd q))) (nodes m)) (edge_syms m (opens m)) (map (fun q => [fst q; snd q]) p) Hsord) as [(got & q & E & Ne & Lg & Vq & Wq & Oc)|E]; [lia|now rewrite Ll|auto| |].
    2: { right. rewrite E. reflexivity. }
    left. rewrite E. cbn [bind fst snd].
    assert (M : exists es, mapM (fun a => match nth_error (keys (edges m)) a with Some e => Ok e | None => Err KeyError end) got = Ok es /\ length es = length got /\ forall e, In e es -> leg m e).
    { clear - Oc W'. induction got as [|a got IH]; cbn [mapM]; [exists []; split; auto; split; auto; intros ? []|].
      destruct (Oc a (or_introl eq_refl)) as (s & Is & Ia). apply in_map_iff in Is as ([x nd] & <- & Ix). cbn [snd] in Ia. unfold edge_syms in Ia. apply in_map_iff in Ia as (e & <- & Ie).
      pose proof (In_get _ _ _ (wf_nodes W') Ix) as Gx. rewrite (index_of_nth _ _ (wf_legs W' x _ Gx Ie)). cbn [bind].
      destruct IH as (es & E & L & I). { intros b Hb. apply Oc. right. auto. } rewrite E. cbn [bind]. eexists. split; [reflexivity|]. split; [cbn [length]; auto|].
      intros a [<-|Ha]; [exists x, nd; auto|auto]. }
    destruct M as (es & Em & Le & Ie). rewrite Em. cbn [bind]. rewrite Ll in Vq. destruct (rename_good GO Vq Wq) as (o' & Er & Go'). rewrite Er. cbn [bind].
    exists es, o'. split; auto. split; [destruct es, got; try discriminate; congruence|]. split; [lia|]. rewrite <- K. split; auto.
    intros e He. destruct (H e (Ie e He)) as (L1 & F1 & _). split; auto.
  Qed.

  (** ** slicer.py:40-79 *)
  Variable early : Z -> nat -> bool.
  Variable rounds : nat -> list ((name -> Z) * nat * (ostep -> opath)).
  Variable paths : nat -> ostep -> opath.
  Variable price : nat -> net -> gorder -> ccost.
  Variable max_size max_tw : nat.
  Variable max_num_slice : Z.
  Hypothesis Hrounds : forall c, Forall (fun r => good_paths (snd r)) (rounds c).
  Hypothesis Hpaths : forall c, good_paths (paths c).
  Notation optimize_scheme := (optimize_scheme rounds price max_size).
  Notation slice_loop := (slice_loop sord accept early rounds paths price max_size max_tw max_num_slice).
  Notation limit := (limit max_tw).

  Lemma optimize_scheme_ok c n leaves y : good_order leaves (sc_order y) ->
    exists y' f, optimize_scheme c n y = Ok (y', CScheme f (sc_slices y) (sc_cost y)) /\ good_order leaves (sc_order y') /\ complete_order leaves f hash /\
      (rounds c = [] -> y' = y /\ f = sc_order y) /\ (rounds c <> [] -> sc_cost y' = price c n (sc_order y')).
  Proof.
    intros G. unfold ModelSlice.optimize_scheme. destruct (rounds c) as [|[[size off] sp] r] eqn:Er.
    { exists y, (sc_order y). destruct y as [a b d]; cbn [sc_order sc_slices sc_cost] in *. split; auto. split; auto. split; [apply G|]. split; auto. congruence. }
    rewrite <- Er. destruct (@flatten_ok size max_size off leaves (sc_order y) hash (proj1 G)) as (f & Ef & Cf & _). rewrite Ef. cbn [bind].
    destruct (@optimize_good max_size (rounds c) leaves (sc_order y) G (Hrounds c)) as (o' & Eo & Go). rewrite Eo. cbn [bind].
    exists (CScheme o' [] (price c n o')), f. cbn [sc_order sc_cost]. split; auto. split; auto. split; auto. split; [rewrite Er; discriminate|auto].
  Qed.
  Lemma slice_loop_ok n0 : sized n0 -> forall fuel c n y es, left_over n0 es n -> good_order (keys (nodes n0)) (sc_order y) ->
    Z.to_nat max_num_slice <= fuel + length es ->
    (exists n' y' more c', slice_loop fuel c n y es = Ok (n', y', es ++ more, c') /\ left_over n0 (es ++ more) n' /\ good_order (keys (nodes n0)) (sc_order y') /\
       (forall e, In e more -> leg n0 e /\ fixedb n0 e = false /\ ~ In e es) /\
       (more = [] -> n' = n /\ y' = y /\ c' = c) /\ (more <> [] -> k_k (sc_cost y') = length (es ++ more) /\ (exists c0, k_s (sc_cost y') = k_s (price c0 n' (sc_order y')) /\ k_t (sc_cost y') = k_t (price c0 n' (sc_order y'))) /\ (Z.of_nat (length (es ++ more)) < max_num_slice + 10)%Z) /\
       ((k_t (sc_cost y') <= limit)%Z \/ (max_num_slice <= Z.of_nat (length (es ++ more)))%Z \/ early (k_t (sc_cost y')) (length (es ++ more)) = true)) \/
    slice_loop fuel c n y es = Err IndexError.
  Proof.
    intros Z0. induction fuel as [|fuel IH]; intros c n y es LO G F; cbn [ModelSlice.slice_loop]; destruct (limit <? k_t (sc_cost y))%Z eqn:Q1.
    1, 3: destruct (max_num_slice <=? Z.of_nat (length es))%Z eqn:Q2.
    - left. exists n, y, [], c. rewrite app_nil_r. split; auto. split; auto. split; auto. split; [intros ? []|]. split; auto. split; [congruence|]. right. left. apply Z.leb_le. auto.
    - apply Z.leb_gt in Q2. cbn in F. lia.
    - left. exists n, y, [], c. rewrite app_nil_r. split; auto. split; auto. split; auto. split; [intros ? []|]. split; auto. split; [congruence|]. right. left. apply Z.leb_le. auto.
    - apply Z.leb_gt in Q2. destruct (early (k_t (sc_cost y)) (length es)) eqn:Q3.
      { left. exists n, y, [], c. rewrite app_nil_r. split; auto. split; auto. split; auto. split; [intros ? []|]. split; auto. split; [congruence|]. auto. }
      destruct (@optimize_scheme_ok c n _ y G) as (y1 & f1 & E1 & G1 & _). rewrite E1. cbn [bind fst snd].
      pose proof LO as (W & K & H & _). rewrite <- K in G1. destruct (bwe_ok W G1) as [(l & o & E2 & Ne & Ll & Il & G2)|E2]; rewrite E2; [|right; reflexivity]. cbn [bind fst snd].
      destruct (@left_over_step n0 es n l Z0 LO) as (n1 & E3 & LO1). { intros e He. apply (Il e He). } rewrite E3. cbn [bind fst snd].
      destruct (resolve_good G2 (Hpaths (c + 1))) as (o' & E4 & G4). rewrite E4. cbn [bind]. rewrite K in G4.
      assert (Fu : Z.to_nat max_num_slice <= fuel + length (es ++ l)). { rewrite app_length. destruct l; [congruence|]. cbn [length]. lia. }
      destruct (IH (c + 2) (fix_all n1) (CScheme o' [] (CCost (k_s (price (c + 1) (fix_all n1) o')) (k_t (price (c + 1) (fix_all n1) o')) (length (es ++ l)))) (es ++ l) LO1 G4 Fu) as [(n' & y' & more & c' & E5 & LO5 & G5 & M5 & N5 & S5 & X5)|E5]; [left|right; exact E5].
      exists n', y', (l ++ more), c'. rewrite app_assoc. split; auto. split; auto. split; auto. split.
      { intros e He. apply in_app_iff in He as [He|He]; [|destruct (M5 e He) as (A1 & A2 & A3); rewrite in_app_iff in A3; tauto].
        destruct (Il e He) as [Le Fe]. destruct (H e Le) as (B1 & B2 & B3 & B4). split; auto. split; auto. destruct (fixedb n0 e); auto. rewrite B4 in Fe; auto. }
      split; [destruct l; [congruence|discriminate]|]. split; [|auto]. intros _. destruct more as [|e more].
      + destruct (N5 eq_refl) as (-> & -> & _). cbn [sc_cost k_k k_s k_t sc_order]. rewrite !app_nil_r. split; auto. split; [exists (c + 1); auto|]. rewrite app_length. lia.
      + apply S5. discriminate.
    - left. exists n, y, [], c. rewrite app_nil_r. split; auto. split; auto. split; auto. split; [intros ? []|]. split; auto. split; [congruence|]. left. apply Z.ltb_ge. auto.
    - left. exists n, y, [], c. rewrite app_nil_r. split; auto. split; auto. split; auto. split; [intros ? []|]. split; auto. split; [congruence|]. left. apply Z.ltb_ge. auto.
  Qed.

  Lemma min_ok l : l <> [] -> exists y, min_scheme l = Ok y /\ In y l.
  Proof.
    destruct l as [|y l]; [congruence|]. intros _. cbn [min_scheme]. eexists. split; [reflexivity|]. revert y. induction l as [|z l IH]; intros y; cbn [fold_left]; [left; auto|].
    destruct (cost_lt (sc_cost z) (sc_cost y)).
    - destruct (IH z) as [E|E]; [right; left; auto|right; right; auto].
    - destruct (IH y) as [E|E]; [left; auto|right; right; auto].
  Qed.
  Lemma slice_loop_stop fuel c n y es : (k_t (sc_cost y) <= limit)%Z \/ (max_num_slice <= Z.of_nat (length es))%Z -> slice_loop fuel c n y es = Ok (n, y, es, c).
  Proof.
    intros H. destruct fuel; cbn [ModelSlice.slice_loop]; (destruct (limit <? k_t (sc_cost y))%Z eqn:Q1; [|reflexivity]); apply Z.ltb_lt in Q1;
      (destruct H as [H|H]; [lia|]); apply Z.leb_le in H; now rewrite H.
  Qed.
  Notation slice_ := (slice_ sord accept early rounds paths price max_size max_tw max_num_slice).
  (** what is known of a scheme [s] returned for the network [n] *)
  Record sliced (n : net) (orders : list cscheme) (s : cscheme) : Prop := {
    sl_order : complete_order (keys (nodes n)) (sc_order s) hash;
    sl_edges : forall e, In e (sc_slices s) -> leg n e /\ fixedb n e = false;
    sl_count : sc_slices s = [] \/ (Z.of_nat (length (sc_slices s)) < max_num_slice + 10)%Z;
    sl_limit : (k_t (sc_cost s) <= limit)%Z;
    sl_k : sc_slices s <> [] -> k_k (sc_cost s) = length (sc_slices s);
    sl_price : exists n' c, left_over n (sc_slices s) n' /\
      ((good_order (keys (nodes n)) (sc_order s) /\
        (k_s (sc_cost s) = k_s (price c n' (sc_order s)) /\ k_t (sc_cost s) = k_t (price c n' (sc_order s)) \/
         sc_slices s = [] /\ exists y, In y orders /\ sc_order s = sc_order y /\ k_s (sc_cost s) = k_s (sc_cost y) /\ k_t (sc_cost s) = k_t (sc_cost y))) \/
       rounds c <> [] /\ exists o, good_order (keys (nodes n)) o /\ (limit < k_t (price c n' o))%Z)
  }.
  Lemma slice_ok n orders : wf n -> sized n -> orders <> [] -> Forall (fun y => good_order (keys (nodes n)) (sc_order y)) orders ->
    (exists s, slice_ n orders = Ok (Some s) /\ sliced n orders s) \/
    (slice_ n orders = Ok None /\ exists es t, (forall e, In e es -> leg n e /\ fixedb n e = false) /\ (limit < t)%Z /\ ((max_num_slice <= Z.of_nat (length es))%Z \/ early t (length es) = true)) \/
    slice_ n orders = Err IndexError.
  Proof.
    intros W Z Ne F. destruct (min_ok Ne) as (y0 & E0 & I0). unfold ModelSlice.slice_. rewrite E0. cbn [bind]. rewrite Forall_forall in F. pose proof (F _ I0) as G0.
    destruct (@optimize_scheme_ok 0 (copy_tn n) _ y0 G0) as (y1 & f1 & E1 & G1 & _ & R1 & P1). rewrite E1. cbn [bind fst snd].
    destruct (@slice_loop_ok n Z (S (Z.to_nat max_num_slice)) 1 (copy_tn n) y1 [] (left_over_refl W) G1) as [(n' & y' & es & c & E2 & LO & G2 & Es & St & Go & En)|E2]; [cbn [length]; lia| |right; right; now rewrite E2].
    cbn [app] in *. rewrite E2. cbn [bind]. destruct (@optimize_scheme_ok c n' _ y' G2) as (y2 & f2 & E3 & G3 & C3 & R3 & P3). rewrite E3. cbn [bind fst snd].
    cbn [with_k sc_cost sc_order k_t sc_slices k_s]. 
    assert (Es' : forall e, In e es -> leg n e /\ fixedb n e = false) by (intros e He; destruct (Es e He); tauto).
    assert (Cn : es = [] \/ (Z.of_nat (length es) < max_num_slice + 10)%Z). { destruct es as [|e es]; [auto|right]. apply Go. discriminate. }
    assert (Pr : exists c0, k_s (sc_cost y') = k_s (price c0 n' (sc_order y')) /\ k_t (sc_cost y') = k_t (price c0 n' (sc_order y')) \/
         es = [] /\ exists y, In y orders /\ sc_order y' = sc_order y /\ k_s (sc_cost y') = k_s (sc_cost y) /\ k_t (sc_cost y') = k_t (sc_cost y)).
    { destruct es as [|e es]; [|destruct Go as (_ & (c0 & H0) & _); [discriminate|exists c0; auto]]. destruct (St eq_refl) as (-> & -> & _).
      destruct (rounds 0) as [|r rs] eqn:Q. { destruct (R1 eq_refl) as [-> _]. exists 0. right. split; auto. exists y0. auto. } exists 0. left. rewrite <- P1; [auto|discriminate]. }
    destruct (k_t (sc_cost y2) <=? limit)%Z eqn:Q1.
    - cbn [with_k sc_cost k_t]. rewrite Q1. left. eexists. split; [reflexivity|]. cbn [sc_cost sc_order sc_slices k_k k_t k_s]. apply Z.leb_le in Q1. destruct (rounds c) as [|r rs] eqn:Q.
      + destruct (R3 eq_refl) as [-> ->]. destruct Pr as (c0 & Pr). constructor; cbn [sc_cost sc_order sc_slices k_k k_t k_s]; auto. exists n', c0. split; auto.
      + constructor; cbn [sc_cost sc_order sc_slices k_k k_t k_s]; auto; [apply G3|]. exists n', c. split; auto. left. split; auto. left. unfold with_k. cbn [sc_cost sc_order k_k k_t k_s]. rewrite <- P3; [auto|discriminate].
    - cbn [sc_cost]. destruct (k_t (sc_cost y') <=? limit)%Z eqn:Q2.
      + left. eexists. split; [reflexivity|]. cbn [sc_cost sc_order sc_slices]. apply Z.leb_le in Q2. apply Z.leb_gt in Q1.
        constructor; cbn [sc_cost sc_order sc_slices]; auto; [intros N; apply Go; auto|]. exists n', c. split; auto. right.
        destruct (rounds c) as [|r rs] eqn:Q; [destruct (R3 eq_refl) as [-> _]; lia|]. split; [discriminate|]. exists (sc_order y2). split; auto. rewrite <- P3; auto. discriminate.
      + right. left. split; auto. apply Z.leb_gt in Q2. exists es, (k_t (sc_cost y')). split; auto. split; auto. destruct En as [En|En]; [lia|auto].
  Qed.
  (** nothing is sliced without need *)
  Lemma slice_none n orders s : orders <> [] -> Forall (fun y => good_order (keys (nodes n)) (sc_order y)) orders -> slice_ n orders = Ok (Some s) ->
    (max_num_slice <= 0)%Z \/ rounds 0 = [] /\ Forall (fun y => (k_t (sc_cost y) <= limit)%Z) orders -> sc_slices s = [].
  Proof.
    intros Ne F E H. destruct (min_ok Ne) as (y0 & E0 & I0). unfold ModelSlice.slice_ in E. rewrite E0 in E. cbn [bind] in E. rewrite Forall_forall in F. pose proof (F _ I0) as G0.
    destruct (@optimize_scheme_ok 0 (copy_tn n) _ y0 G0) as (y1 & f1 & E1 & G1 & _ & R1 & P1). rewrite E1 in E. cbn [bind fst snd] in E. rewrite slice_loop_stop in E.
    2: { destruct H as [H|[H L]]; [right; cbn [length]; lia|]. left. destruct (R1 H) as [-> _]. rewrite Forall_forall in L. auto. }
    cbn [bind] in E. destruct (@optimize_scheme_ok 1 (copy_tn n) _ y1 G1) as (y2 & f2 & E3 & _). rewrite E3 in E. cbn [bind fst snd] in E.
    repeat match type of E with context [if ?b then _ else _] => destruct b end; inversion E; auto.
  Qed.
End Net.
