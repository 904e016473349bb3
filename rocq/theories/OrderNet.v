(** * From orders to compiled contractions *)
From Coq Require Import List Arith ZArith String Lia Bool Permutation.
From Verif Require Import Base Scalar NetSpec ModelArray ArrayProofs ModelTN TNInv TNOps TNSpec TNDelta TNDeltaValue ModelHist ModelContract ContractNet ContractExec
  ContractTemplate ContractMain ContractMerge ContractFlat ContractData ContractUser OrderSpec ModelOrder OrderProofs OrderProofs2 OrderProofs3.
Import ListNotations.
Set Implicit Arguments.
Open Scope nat_scope.

(** a pairwise order as the triples ContractionScheme holds *)
Definition pairs_of (o : gorder) : order :=
  map (fun s => match fst s with x :: y :: _ => (x, y, snd s) | _ => (snd s, snd s, snd s) end) o.

Lemma red_valid_order o : forall p q cur, red p o [q] -> pairwise o -> NoDup (p ++ results o) -> Permutation p cur ->
  valid_order cur (pairs_of o).
Proof.
  induction o as [|[l z] r IH]; intros p q cur R Pw Nd P.
  - simpl in *. rewrite <- P, R. auto.
  - destruct R as (rest & Pl & R). inversion Pw as [|? ? Ll Pr]; subst. cbn [fst] in Ll.
    destruct l as [|x [|y [|]]]; try discriminate. cbn [pairs_of map fst snd valid_order].
    assert (Np : NoDup ([x; y] ++ rest)).
    { eapply Permutation_NoDup; [apply Pl|]. apply NoDup_app_iff in Nd. tauto. }
    assert (Nxy : x <> y) by (inversion Np; subst; simpl in *; intuition congruence).
    assert (Ix : In x cur) by (eapply Permutation_in; [apply P|]; eapply Permutation_in; [symmetry; apply Pl|]; simpl; auto).
    assert (Iy : In y cur) by (eapply Permutation_in; [apply P|]; eapply Permutation_in; [symmetry; apply Pl|]; simpl; auto).
    split; auto. split; auto. split; auto. eapply IH; [apply R|auto| |].
    + simpl. simpl in Nd. rewrite Pl in Nd. rewrite <- app_assoc in Nd. apply NoDup_app_iff in Nd. destruct Nd as (_ & Nd & _).
      eapply Permutation_NoDup; [|apply Nd]. symmetry. apply Permutation_middle.
    + rewrite <- Permutation_cons_append. constructor.
      apply Permutation_cons_inv with y. apply Permutation_cons_inv with x.
      rewrite <- (remove1_perm y) by (apply remove1_keep; auto). rewrite <- (remove1_perm x) by auto.
      rewrite <- P, Pl. auto.
Qed.

(** a complete pairwise order is accepted by the compiler *)
Lemma complete_valid_order nodes o fin : complete_order nodes o fin -> pairwise o -> valid_order nodes (pairs_of o).
Proof. intros C Pw. eapply red_valid_order; eauto using complete_red, co_names. Qed.

(** order_to_path gives the positions the compiler computes *)
Lemma del_index x l : In x l -> del_nth (index_of x l) l = remove1 x l.
Proof.
  unfold del_nth. induction l as [|y r IH]; simpl; [tauto|]. intros I. destruct (eqb_spec x y) as [->|N]; auto.
  destruct I as [->|I]; [congruence|]. specialize (IH I). simpl. f_equal.
  change (skipn (S (index_of x r)) r) with (match r with [] => [] | _ :: q => skipn (index_of x r) q end). auto.
Qed.
Lemma remove1_comm (x y : name) l : remove1 x (remove1 y l) = remove1 y (remove1 x l).
Proof.
  induction l as [|z r IH]; simpl; auto. destruct (eqb_spec y z) as [->|Ny], (eqb_spec x z) as [->|Nx]; simpl; auto.
  - rewrite eqb_refl. auto.
  - rewrite eqb_refl. auto.
  - destruct (eqb_spec x z); [congruence|]. destruct (eqb_spec y z); [congruence|]. f_equal. auto.
Qed.
Lemma index_remove (x y : name) l : In x l -> index_of x l < index_of y l -> index_of x (remove1 y l) = index_of x l.
Proof.
  induction l as [|z r IH]; simpl; [tauto|]. intros I L. destruct (eqb_spec y z) as [->|Ny].
  - lia.
  - simpl. destruct (eqb_spec x z) as [->|Nx]; auto. f_equal. apply IH; [destruct I; [congruence|auto]|]. lia.
Qed.

Lemma order_to_path_eq o : forall nodes, valid_order nodes (pairs_of o) -> pairwise o ->
  order_to_path nodes o = order_path nodes (pairs_of o).
Proof.
  induction o as [|[l z] r IH]; intros nodes V Pw; auto.
  inversion Pw as [|? ? Ll Pr]; subst. cbn [fst] in Ll. destruct l as [|x [|y [|]]]; try discriminate.
  cbn [pairs_of map fst snd valid_order] in V. destruct V as (N & Ix & Iy & V).
  cbn [order_to_path pairs_of map fst snd order_path]. fold (pairs_of r).
  rewrite (proj2 (mem_In x nodes) Ix), (proj2 (mem_In y nodes) Iy), (proj2 (mem_In y (remove1 x nodes)) (remove1_keep _ N Iy)). cbn [andb].
  assert (Nij : index_of x nodes <> index_of y nodes) by (intros E; apply N; eapply index_of_inj; eauto).
  assert (Pop : forall a b, a <> b -> In a nodes -> In b nodes -> index_of a nodes < index_of b nodes ->
    pop_nth (index_of b nodes) nodes = Ok (b, remove1 b nodes) /\
    pop_nth (index_of a nodes) (remove1 b nodes) = Ok (a, remove1 a (remove1 b nodes))).
  { intros a b Nab Ia Ib L. unfold pop_nth. rewrite (index_of_nth b nodes Ib), (del_index b nodes Ib). split; auto.
    rewrite <- (index_remove a b nodes Ia L). assert (Ia' : In a (remove1 b nodes)) by (apply remove1_keep; auto).
    rewrite (index_of_nth a _ Ia'), (del_index a _ Ia'). auto. }
  destruct (Nat.lt_total (index_of x nodes) (index_of y nodes)) as [L|[L|L]]; [|lia|].
  - rewrite Nat.max_r, Nat.min_l by lia. destruct (Pop x y N Ix Iy L) as [-> E]. cbn [bind snd]. rewrite E. cbn [bind snd].
    rewrite remove1_comm, IH; auto.
  - rewrite Nat.max_l, Nat.min_r by lia. destruct (Pop y x (not_eq_sym N) Iy Ix L) as [-> E]. cbn [bind snd]. rewrite E. cbn [bind snd].
    rewrite IH; auto.
Qed.

Lemma order_to_path_ok nodes o fin : complete_order nodes o fin -> pairwise o ->
  exists p, order_to_path nodes o = Ok p /\ valid_path (List.length nodes) p.
Proof.
  intros C Pw. pose proof (complete_valid_order C Pw) as V. rewrite (@order_to_path_eq o nodes V Pw).
  destruct (order_path_ok _ _ V) as (p & E & Vp & _). eauto.
Qed.

Lemma default_finder_eq sp nodes : default_finder sp nodes = finder_with py_sorted sp nodes.
Proof. reflexivity. Qed.

(** node names that an order finder can work with: '#' and the names ('#', i), i >= 0, are reserved *)
Definition unreserved (nodes : list name) : Prop :=
  ~ In hash nodes /\ (forall v, ~ In (NT [NS "#"%string; v]) nodes).

Lemma unreserved_readable nodes : unreserved nodes -> Forall readable nodes.
Proof.
  intros [_ H]. apply Forall_forall. intros x I v ->. destruct (H v I).
Qed.

Lemma default_finder_valid sp nodes : NoDup nodes -> unreserved nodes -> good_paths sp ->
  exists o, default_finder sp nodes = Ok o /\
    (List.length nodes <= 1 -> o = []) /\ (2 <= List.length nodes -> complete_order nodes o hash /\ pairwise o) /\
    (pairs_of o = [] \/ valid_order nodes (pairs_of o)).
Proof.
  intros Nd U G. pose proof (Permutation_sym (py_sorted_perm nodes)) as Pm.
  destruct (le_lt_dec 2 (List.length nodes)) as [L|L].
  - destruct (@finder_complete py_sorted sp nodes) as (o & E & C & Pw); auto.
    + apply U.
    + apply unreserved_readable; auto.
    + intros i _ _ I. destruct U as [_ U]. apply (U (NI i)). auto.
    + exists o. rewrite default_finder_eq. split; auto. split; [lia|]. split; auto. right.
      eapply complete_valid_order; eauto.
  - exists []. split; [|split; auto; split; [lia|auto]]. unfold default_finder.
    pose proof (Permutation_length Pm) as Lp. destruct (py_sorted nodes) as [|x [|y r]]; auto. simpl in *. lia.
Qed.

(** ** names of the nodes of a completed network *)
Section NamesOf.
  Context {T : Type} `{PT : Payload T}.
  Notation net := (tn T).
  Definition delta_named (x : name) : Prop := x = star \/ exists e k, x = delta_node e k.
  Definition nm (P : name -> Prop) (n n' : net) : Prop :=
    forall x, In x (keys (nodes n')) -> In x (keys (nodes n)) \/ P x.
  Variable P : name -> Prop.
  Notation nmP := (nm P).
  Lemma nm_refl n : nmP n n. Proof. intros x; auto. Qed.
  Lemma nm_trans a b c : nmP a b -> nmP b c -> nmP a c.
  Proof. intros H1 H2 x I. apply H2 in I as [I|]; auto. Qed.
  Lemma nm_bind {A B} (m : M A) (f : A -> M B) : always nmP m -> (forall a, always nmP (f a)) -> always nmP (mbind m f).
  Proof. apply always_bind. apply nm_trans. Qed.
  Lemma nm_foreach {X} (f : X -> M unit) l : (forall a, always nmP (f a)) -> always nmP (foreach f l).
  Proof. intros. apply always_foreach; auto. apply nm_refl. apply nm_trans. Qed.
  Lemma nm_ret {A} (a : A) : always nmP (ret a). Proof. intros n; apply nm_refl. Qed.
  Lemma nm_raise {A} (x : exn) : always nmP (raise (A := A) x). Proof. intros n; apply nm_refl. Qed.
  Lemma nm_same f : (forall n, nodes (f n) = nodes n) -> always nmP (modify f).
  Proof. intros Hf n x. simpl. rewrite Hf. auto. Qed.
  Lemma nm_get {A} (f : net -> M A) : (forall n, always nmP (f n)) -> always nmP (let! n := getst in f n).
  Proof. intros Hf n. apply Hf. Qed.
  Lemma nm_grows {A} (m : M A) : always grows m -> always nmP m.
  Proof. intros G n x. rewrite (g_nodes (G n)). auto. Qed.
  Lemma graph_connect_nodes x es (n : net) : nodes (graph_connect x es n) = nodes n.
  Proof.
    unfold graph_connect. cbn [with_adj nodes]. revert n; induction es as [|e r IH]; simpl; intros n; auto.
    rewrite IH. destruct (has e (edges n)); auto.
  Qed.
  Lemma add_node_nm x es t : P x -> always nmP (add_node x es t false).
  Proof.
    intros Px. unfold add_node. apply nm_get. intros n. destruct (has x (nodes n)); [apply nm_raise|].
    apply nm_bind.
    { destruct es; [apply nm_ret|]. destruct (pshape t); [apply nm_ret|apply nm_raise]. }
    intros [legs mut]. apply nm_bind.
    { intros k y. simpl. rewrite keys_app, in_app_iff. simpl. intuition congruence. }
    intros _. apply nm_bind; [apply nm_foreach; intros p; apply nm_grows, add_leg_grows|intros _].
    apply nm_bind; [apply nm_same, graph_connect_nodes|intros _].
    apply nm_bind; [|intros _; apply nm_bind; intros; apply nm_ret].
    unfold update_node. apply nm_get. intros m. destruct (get x (nodes m)) as [nd|]; [|apply nm_raise].
    apply nm_bind.
    { intros k y. simpl. intros I. apply keys_set_In in I as [->|I]; auto. }
    intros _. destruct (pshape t); [destruct (_ <=? _); [apply nm_grows, update_dimension_grows|apply nm_raise]|].
    apply nm_grows, update_dimension_grows.
  Qed.
  Lemma dim_of_nm e : always nmP (dim_of e).
  Proof.
    unfold dim_of. apply nm_get. intros n. destruct (get e (edges n)) as [ed|]; [|apply nm_raise].
    destruct (e_dim ed); [apply nm_ret|apply nm_raise].
  Qed.
  Hypothesis Pd : forall x, delta_named x -> P x.
  Lemma delta_open_nm l : forall cnt, always nmP (delta_open l cnt).
  Proof.
    induction l as [|[i e] r IH]; intros cnt; cbn [delta_open]; [apply nm_ret|].
    destruct (get e cnt); [|apply IH]. apply nm_bind; [apply dim_of_nm|intros d].
    apply nm_bind; [apply add_node_nm, Pd; right; eauto|intros _]. apply nm_bind; [apply nm_same; auto|intros _]. apply IH.
  Qed.
  Lemma delta_fix_nm old p : always nmP (delta_fix old p).
  Proof.
    destruct p as [e k]. unfold delta_fix. apply nm_get. intros n. destruct (get e (edges n)) as [ed|]; [|apply nm_raise].
    assert (A : forall t, always nmP (let! _ := add_node (delta_node e 0) (Some [e]) t false in ret tt)).
    { intros t. apply nm_bind; [apply add_node_nm, Pd; right; eauto|intros _; apply nm_ret]. }
    destruct (e_fix ed).
    - apply nm_bind; [apply dim_of_nm|intros d]. apply nm_bind; [apply nm_same; auto|intros _]. apply A.
    - destruct (_ && _); [|apply nm_ret]. apply nm_bind; [apply dim_of_nm|intros d]. apply A.
  Qed.
  Lemma complete_delta_nm : always nmP (complete_delta (T := T)).
  Proof.
    unfold complete_delta. apply nm_get. intros n. destruct (has star (nodes n)); [apply nm_ret|].
    apply nm_bind.
    { destruct (nodes n); [|apply nm_ret]. apply nm_bind; [apply add_node_nm, Pd; left; auto|intros _; apply nm_ret]. }
    intros _. apply nm_bind; [apply delta_open_nm|intros cnt]. apply nm_foreach. intros. apply delta_fix_nm.
  Qed.
End NamesOf.

Lemma complete_delta_unreserved T `{PT : Payload T} (n n' : tn T) r :
  complete_delta (copy_tn n) = (n', r) -> unreserved (keys (nodes n)) -> unreserved (keys (nodes n')).
Proof.
  intros E [U1 U2]. pose proof (@complete_delta_nm T PT delta_named (fun x H => H) (copy_tn n)) as D.
  rewrite E in D. cbn [fst] in D. split.
  - intros I. apply D in I as [I|[Q|(e & k & Q)]]; [contradiction|discriminate Q|discriminate Q].
  - intros v I. apply D in I as [I|[Q|(e & k & Q)]]; [apply (U2 v I)|discriminate Q|discriminate Q].
Qed.

(** the whole way: an order for the nodes the compiler works on, compiled and executed, gives the value *)
Lemma finder_contracts (S : scalar) (n : tn (nd S)) (find : list name -> res gorder) memory cost :
  contractible Ok n -> no_idle_edge n -> fits_memory memory cost -> unreserved (keys (nodes n)) ->
  (forall l, NoDup l -> unreserved l -> exists o, find l = Ok o /\ (pairs_of o = [] \/ valid_order l (pairs_of o))) ->
  exists n' o r, complete_delta (copy_tn n) = (n', Ok tt) /\ find (keys (nodes n')) = Ok o /\
    contract_net Ok memory cost (pairs_of o) [] n = Ok r /\ array_of_value n r.
Proof.
  intros C I M U F.
  destruct (@complete_delta_ready S (nd S) _ (@nd_at S) Ok (nd_laws S) (nd_ev_laws S) n C) as (n' & E & R & _).
  assert (Nd : NoDup (keys (nodes n'))) by apply (wf_nodes (rd_wf R)).
  destruct (F (keys (nodes n')) Nd (complete_delta_unreserved n E U)) as (o & Eo & V).
  destruct (@contract_value S n memory cost (pairs_of o) []) as (r & Er & Ar); auto.
  { intros n'' E''. rewrite E in E''. inversion E''; subst n''. split; [|split].
    - constructor; intros e [].
    - exact V.
    - left. intros e _ []. }
  exists n', o, r. auto.
Qed.

(** ** Local optimisation: flatten and resolve, any number of rounds *)
Definition wide_steps (o : gorder) : Prop := Forall (fun s => 2 <= List.length (fst s)) o.

Lemma rhs_list_in o : forall i acc (P : list name -> Prop), Forall (fun s => P (fst s)) o ->
  (forall x j m, get x acc = Some (j, m) -> P m) ->
  forall x j m, get x (rhs_list i o acc) = Some (j, m) -> P m.
Proof.
  induction o as [|s r IH]; intros i acc P F H x j m; simpl; [apply H|]. inversion F; subst.
  apply IH; auto. intros y k q. rewrite get_set. destruct (eqb y (snd s)); [|apply H]. intros Q. inversion Q; subst. auto.
Qed.
Lemma pick_in size max_size offset rhs len l : forall cof x i m c,
  pick size max_size offset rhs len l cof = (Some (x, (i, m)), c) -> In x l /\ get x rhs = Some (i, m).
Proof.
  induction l as [|y r IH]; intros cof x i m c; simpl; [discriminate|].
  destruct (get y rhs) as [[j q]|] eqn:G.
  - destruct (_ || _)%bool; [intros E; apply IH in E; tauto|]. destruct (Nat.ltb cof offset); [intros E; apply IH in E; tauto|].
    intros Q. inversion Q; subst. auto.
  - intros E. apply IH in E. tauto.
Qed.
Lemma In_firstn {A} (x : A) i l : In x (firstn i l) -> In x l.
Proof. intros I. rewrite <- (firstn_skipn i l). apply in_or_app; auto. Qed.
Lemma In_skipn {A} (x : A) i l : In x (skipn i l) -> In x l.
Proof. intros I. rewrite <- (firstn_skipn i l). apply in_or_app; auto. Qed.
Lemma Forall_set_nth {A} (P : A -> Prop) l : forall i x, Forall P l -> P x -> Forall P (set_nth i x l).
Proof.
  induction l as [|y r IH]; intros [|i] x F Px; simpl; auto; inversion F; subst; auto.
Qed.
Lemma Forall_del_nth {A} (P : A -> Prop) (l : list A) i : Forall P l -> Forall P (del_nth i l).
Proof.
  unfold del_nth. intros F. apply Forall_app. split.
  - apply Forall_forall. intros x I. rewrite Forall_forall in F. apply F. eapply (In_firstn); eauto.
  - apply Forall_forall. intros x I. rewrite Forall_forall in F. apply F. eapply In_skipn; eauto.
Qed.
Lemma flat_loop_wide size max_size offset fuel : forall o c cof o',
  flat_loop size max_size offset fuel o c cof = Ok o' -> wide_steps o -> wide_steps o'.
Proof.
  induction fuel as [|fuel IH]; intros o c cof o' E W; cbn [flat_loop] in E; [discriminate|].
  destruct (Nat.ltb c (List.length o)); [|inversion E; subst; auto].
  destruct (nth_error o (List.length o - c)) as [[lhs z]|] eqn:En; [|discriminate].
  destruct (Nat.leb max_size (List.length lhs)); [eapply IH; eauto|].
  destruct (pick _ _ _ _ _ _ _) as [[[l [i m]]|] cf] eqn:Ep; [|eapply IH; eauto].
  apply IH in E; auto. apply pick_in in Ep as [Il Gl].
  apply Forall_del_nth, Forall_set_nth; auto. cbn [fst].
  assert (Lm : 2 <= List.length m).
  { eapply (@rhs_list_in (firstn (List.length o - c) o) 0 [] (fun m => 2 <= List.length m)); eauto; [|intros; discriminate].
    unfold wide_steps in W. rewrite Forall_forall in *. intros s I. apply W. eapply In_firstn; eauto. }
  rewrite app_length. lia.
Qed.

Lemma good_wide sp o : good_paths sp -> wide_steps o ->
  (forall s, In s o -> valid_opath (List.length (fst s)) (sp s) /\ sp s <> []) /\
  (forall s, In s o -> pair_path (sp s)).
Proof.
  intros G P. split; intros s I; unfold wide_steps in P; rewrite Forall_forall in P; specialize (P s I);
    destruct (G s) as (A & B & C); auto; intros E; rewrite E in P; simpl in P; lia.
Qed.

Lemma operands_in leaves o fin x : complete_order leaves o fin -> In x (operands o) -> In x leaves \/ In x (results o).
Proof.
  intros C I. eapply Permutation_in in I; [|apply (co_once C)]. apply in_app_or in I as [I|I]; auto.
  right. destruct (co_last C) as (o' & l & ->). rewrite removelast_results in I. rewrite results_app.
  apply in_or_app; auto.
Qed.
Lemma results_used leaves o fin x : complete_order leaves o fin -> In x (leaves ++ results o) -> In x (operands o) \/ x = fin.
Proof.
  intros C I. destruct (co_last C) as (o' & l & E). pose proof (co_once C) as P. rewrite E, removelast_results in P. rewrite <- E in P.
  rewrite E, results_app in I. simpl in I. rewrite app_assoc in I. apply in_app_or in I as [I|[I|[]]]; auto.
  left. eapply Permutation_in; [symmetry; apply P|]. auto.
Qed.

Lemma optimize_ok max_size rounds : forall leaves o, complete_order leaves o hash -> pairwise o -> Forall readable (operands o) ->
  Forall (fun r => good_paths (snd r)) rounds ->
  exists o', optimize rounds max_size o = Ok o' /\ complete_order leaves o' hash /\ pairwise o'.
Proof.
  induction rounds as [|[[size offset] sp] r IH]; intros leaves o C Pw Rd G; [exists o; auto|].
  inversion G as [|? ? G1 G2]; subst. cbn [snd] in G1. cbn [optimize].
  destruct (@flatten_ok size max_size offset leaves o hash C) as (f & Ef & Cf & Sb). rewrite Ef. cbn [bind].
  assert (W : wide_steps f).
  { eapply flat_loop_wide; [apply Ef|]. unfold pairwise, wide_steps in *. eapply Forall_impl; [|apply Pw]. simpl. intros; lia. }
  assert (Rf : Forall readable (operands f)).
  { apply Forall_forall. intros x I. rewrite Forall_forall in Rd.
    assert (J : In x (leaves ++ results o)).
    { apply in_or_app. destruct (operands_in _ Cf I) as [J|J]; auto. right. apply (Sb x J). }
    destruct (results_used _ C J) as [K|K]; auto. subst x. intros v Q; discriminate Q. }
  destruct (good_wide G1 W) as [V P].
  destruct (@scheme_ok sp leaves f Cf Rf V) as (o1 & E1 & C1 & _ & R1 & P1). rewrite E1. cbn [bind].
  apply IH; auto.
Qed.
