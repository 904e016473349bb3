(** One gate of the loop of convert_density. *)
From Coq Require Import Sorting.Permutation Sorting.Sorted.
From Verif Require Import Base Scalar NetSpec Sums NetAlg ModelArray ModelTN TNInv TNOps TNSpec TNValue TNExact TNEdit
  TNEdit2 ModelVal ModelOps OpsSpec OpsProofs OpsValue ModelContract CircSpec CircSum CircOrder ModelCircuit CircSem CircShape CircWire CircStep DensSpec.
Set Implicit Arguments.

(** ** both copies of wires *)
Lemma ket_inj x y : ket x = ket y -> x = y. Proof. intros E; inversion E; auto. Qed.
Lemma bra_inj x y : bra x = bra y -> x = y. Proof. intros E; inversion E; auto. Qed.
Lemma ket_bra x y : ket x <> bra y. Proof. discriminate. Qed.
Lemma both_In x qs : In x (both qs) <-> exists q, In q qs /\ (x = ket q \/ x = bra q).
Proof.
  unfold both. rewrite in_app_iff, !in_map_iff. split.
  - intros [(q & <- & I)|(q & <- & I)]; eauto.
  - intros (q & I & [->| ->]); eauto.
Qed.
Lemma both_ket q qs : In (ket q) (both qs) <-> In q qs.
Proof.
  rewrite both_In. split; [|intros I; exists q; auto]. intros (r & I & [E|E]); [apply ket_inj in E; subst; auto|discriminate].
Qed.
Lemma both_bra q qs : In (bra q) (both qs) <-> In q qs.
Proof.
  rewrite both_In. split; [|intros I; exists q; auto]. intros (r & I & [E|E]); [discriminate|apply bra_inj in E; subst; auto].
Qed.
Lemma both_NoDup qs : NoDup qs -> NoDup (both qs).
Proof.
  intros N. apply NoDup_app_iff. split; [|split].
  - apply FinFun.Injective_map_NoDup; auto. exact ket_inj.
  - apply FinFun.Injective_map_NoDup; auto. exact bra_inj.
  - intros x X Y. apply in_map_iff in X as (a & <- & _). apply in_map_iff in Y as (b & E & _). discriminate.
Qed.
Lemma both_incl l m : incl l m -> incl (both l) (both m).
Proof. intros I x X. apply both_In in X as (q & Iq & E). apply both_In. exists q; auto. Qed.
Lemma filter_both (p : name -> bool) (r : name -> bool) qs :
  (forall q, In q qs -> p (ket q) = r q) -> (forall q, In q qs -> p (bra q) = r q) -> filter p (both qs) = both (filter r qs).
Proof.
  intros H1 H2. unfold both. rewrite filter_app. f_equal.
  - induction qs as [|q l IH]; simpl; auto. rewrite H1 by (simpl; auto).
    rewrite IH; [destruct (r q); auto|intros; apply H1; simpl; auto|intros; apply H2; simpl; auto].
  - induction qs as [|q l IH]; simpl; auto. rewrite H2 by (simpl; auto).
    rewrite IH; [destruct (r q); auto|intros; apply H1; simpl; auto|intros; apply H2; simpl; auto].
Qed.
Lemma map_both {X} (f : name -> X) qs : map f (both qs) = map (fun q => f (ket q)) qs ++ map (fun q => f (bra q)) qs.
Proof. unfold both. rewrite map_app, !map_map. auto. Qed.

Section Words.
  Variable S : scalar.
  Lemma get_map_inj {B} (f : name -> name) (finj : forall x y, f x = f y -> x = y) q qs (ws : list B) :
    get (f q) (combine (map f qs) ws) = get q (combine qs ws).
  Proof.
    revert ws; induction qs as [|x qs IH]; intros [|w ws]; simpl; auto.
    destruct (eqb_spec (f q) (f x)) as [E|N]; destruct (eqb_spec q x) as [E'|N']; auto.
    - apply finj in E. congruence.
    - congruence.
  Qed.
  Lemma get_map_none {B} (f : name -> name) x qs (ws : list B) : (forall q, f q <> x) -> get x (combine (map f qs) ws) = None.
  Proof.
    intros H. revert ws; induction qs as [|y qs IH]; intros [|w ws]; simpl; auto.
    destruct (eqb_spec x (f y)) as [E|N]; auto. exfalso. apply (H y); auto.
  Qed.
  Lemma combine_app {A B} (a b : list A) (c d : list B) : length a = length c -> combine (a ++ b) (c ++ d) = combine a c ++ combine b d.
  Proof. revert c; induction a as [|x a IH]; intros [|y c] L; simpl in *; try discriminate; auto. rewrite IH by lia. auto. Qed.
  Definition fits (g : cact S) : Prop := length (c_on g) = length (c_words g).
  Lemma word_ket g q : fits g -> word_at (dbl g) (ket q) = word_at (skel g) q.
  Proof.
    intros L. unfold word_at, dbl, both; simpl. rewrite combine_app by (rewrite map_length; auto). rewrite get_app.
    rewrite (@get_map_inj _ ket ket_inj), (@get_map_none _ bra) by discriminate. destruct (get q _); auto.
  Qed.
  Lemma word_bra g q : fits g -> word_at (dbl g) (bra q) = word_at (skel g) q.
  Proof.
    intros L. unfold word_at, dbl, both; simpl. rewrite combine_app by (rewrite map_length; auto). rewrite get_app.
    rewrite (@get_map_none _ ket) by discriminate. rewrite (@get_map_inj _ bra bra_inj). auto.
  Qed.
  Lemma dbl_outs g : fits g -> act_outs (dbl g) = both (act_outs (skel g)).
  Proof. intros L. unfold act_outs. simpl on. apply filter_both; intros q _; f_equal; [apply word_ket|apply word_bra]; auto. Qed.
  Lemma dbl_ins g : fits g -> act_ins (dbl g) = both (act_ins (skel g)).
  Proof. intros L. unfold act_ins. simpl on. apply filter_both; intros q _; f_equal; [apply word_ket|apply word_bra]; auto. Qed.
  Lemma history_ket gs q : Forall fits gs -> history (map (@dbl S) gs) (ket q) = history (map (@skel S) gs) q.
  Proof. induction 1 as [|g gs L F IH]; auto. simpl. rewrite !history_cons, IH, word_ket; auto. Qed.
  Lemma history_bra gs q : Forall fits gs -> history (map (@dbl S) gs) (bra q) = history (map (@skel S) gs) q.
  Proof. induction 1 as [|g gs L F IH]; auto. simpl. rewrite !history_cons, IH, word_bra; auto. Qed.
  Lemma dbl_wires_out Q gs : Forall fits gs -> wires_out (both Q) (map (@dbl S) gs) = both (wires_out Q (map (@skel S) gs)).
  Proof. intros F. unfold wires_out. apply filter_both; intros q _; f_equal; [apply history_ket|apply history_bra]; auto. Qed.
  Lemma dbl_wires_in Q gs : Forall fits gs -> wires_in (both Q) (map (@dbl S) gs) = both (wires_in Q (map (@skel S) gs)).
  Proof. intros F. unfold wires_in. apply filter_both; intros q _; f_equal; [apply history_ket|apply history_bra]; auto. Qed.
End Words.

(** ** the dictionaries *)
Lemma dens_ins_spec t k : forall qs w, NoDup qs ->
  let z := dens_ins t k qs w in
  fst z = map (fun q => (q, match get q (dw_out w) with Some e => e | None => (t, k) end)) qs /\
  (forall q, get q (dw_out (snd z)) = if mem q qs then None else get q (dw_out w)) /\
  (forall q, get q (dw_in (snd z)) = if mem q qs && missing (dw_out w) q then Some (t, k) else get q (dw_in w)) /\
  (NoDup (keys (dw_out w)) -> NoDup (keys (dw_out (snd z)))) /\ (NoDup (keys (dw_in w)) -> NoDup (keys (dw_in (snd z)))).
Proof.
  induction qs as [|q qs IH]; intros w N; simpl; [repeat split; auto|].
  inversion N as [|? ? N1 N2]; subst. destruct (get q (dw_out w)) as [e|] eqn:G.
  - destruct (IH (DWires (del q (dw_out w)) (dw_in w)) N2) as (H1 & H2 & H3 & H5 & H6). simpl in *.
    rewrite H1. repeat split; auto.
    + f_equal. apply map_ext_in. intros x Ix. rewrite get_del_neq; auto. intros ->; tauto.
    + intros x. rewrite H2. destruct (eqb_spec x q) as [->|Nx]; simpl.
      * rewrite (proj2 (mem_false q qs) N1), get_del_eq; auto.
      * rewrite get_del_neq by auto. auto.
    + intros x. rewrite H3. destruct (eqb_spec x q) as [->|Nx]; simpl.
      * rewrite (proj2 (mem_false q qs) N1). simpl. unfold missing. rewrite G. auto.
      * unfold missing. rewrite get_del_neq by auto. auto.
    + intros ND. apply H5. apply keys_del_NoDup; auto.
  - destruct (IH (DWires (dw_out w) (set q (t, k) (dw_in w))) N2) as (H1 & H2 & H3 & H5 & H6). simpl in *.
    rewrite H1. repeat split; auto.
    + intros x. rewrite H2. destruct (eqb_spec x q) as [->|Nx]; simpl; auto.
      rewrite (proj2 (mem_false q qs) N1). auto.
    + intros x. rewrite H3. destruct (eqb_spec x q) as [->|Nx]; simpl.
      * rewrite (proj2 (mem_false q qs) N1). simpl. unfold missing. rewrite G. simpl. rewrite get_set_eq; auto.
      * rewrite get_set_neq by auto. auto.
    + intros ND. apply H6. apply keys_set_NoDup; auto.
Qed.
Lemma dens_outs_spec t k : forall qs w, NoDup qs ->
  let z := dens_outs t k qs w in
  fst z = map (fun q => (q, ((t + 1)%Z, k))) qs /\
  (forall q, get q (dw_out (snd z)) = if mem q qs then Some ((t + 1)%Z, k) else get q (dw_out w)) /\
  dw_in (snd z) = dw_in w /\
  (NoDup (keys (dw_out w)) -> NoDup (keys (dw_out (snd z)))).
Proof.
  induction qs as [|q qs IH]; intros w N; cbn [dens_outs]; [repeat split; auto|].
  inversion N as [|? ? N1 N2]; subst.
  destruct (IH (DWires (set q ((t + 1)%Z, k) (dw_out w)) (dw_in w)) N2) as (H1 & H2 & H3 & H5). cbn [fst snd map dw_in dw_out mem] in *.
  rewrite H1. repeat split; auto.
  - intros x. rewrite H2. change (mem x (q :: qs)) with (eqb x q || mem x qs). destruct (eqb_spec x q) as [->|Nx]; simpl orb; cbv iota.
    + rewrite (proj2 (mem_false q qs) N1), get_set_eq; auto.
    + rewrite get_set_neq; auto.
  - intros ND. apply H5. apply keys_set_NoDup; auto.
Qed.

Section Step.
  Variable S : scalar.
  Notation tval := (tval S).
  Notation env := (env (A := name)).
  Local Open Scope K_scope.
  Add Ring Kring_dens : (kring S).

  (** legs of dimension 2, known or new *)
  Lemma add_legs_two : forall legs (n : tn tval) pre m, ~ In NN legs -> (forall e, In e (keys (edges n)) -> edim n e = Some 2%nat) ->
    pre + length legs <= m ->
    foreach (add_leg (Some (repeat (Some 2%nat) m))) (combine (seq pre (length legs)) legs) n =
    (with_edges n (edges n ++ map two_edge (fresh_of (keys (edges n)) legs)), Ok tt).
  Proof.
    induction legs as [|e r IH]; intros n pre m NN' Hd L.
    - simpl. rewrite app_nil_r, with_edges_same. reflexivity.
    - cbn [combine seq length foreach]. unfold mbind, add_leg at 1. cbn [fst snd].
      assert (Q : nth_error (repeat (Some 2%nat) m) pre = Some (Some 2%nat)).
      { simpl in L. clear -L. revert pre L; induction m as [|m IH]; intros [|pre] L; simpl; auto; try lia. apply IH. lia. }
      rewrite Q. unfold mbind. cbn [fresh_of]. destruct (mem e (keys (edges n))) eqn:M.
      + apply mem_In in M. rewrite add_edge_same; [|auto|simpl in NN'; intros ->; tauto|right; symmetry; apply Hd; auto].
        change (ret tt n) with (n, Ok tt : res unit). cbn iota beta. apply IH; auto. simpl in NN'; tauto. simpl in L; lia.
      + apply mem_false in M. rewrite add_edge_fresh; [|auto|simpl in NN'; intros ->; tauto].
        set (n1 := with_edges n _). change (ret tt n1) with (n1, Ok tt : res unit). cbn iota beta.
        rewrite (IH n1); [| |..].
        * unfold n1. cbn [edges with_edges]. rewrite keys_app. simpl keys. f_equal.
          assert (E : fresh_of (keys (edges n) ++ [e]) r = fresh_of (e :: keys (edges n)) r).
          { generalize (keys (edges n)) as l. clear. intros l.
            assert (H : forall r l m, (forall x, In x l <-> In x m) -> fresh_of l r = fresh_of m r).
            { clear. induction r as [|x r IH]; intros l m H; simpl; auto. rewrite (mem_ext x l m (H x)).
              destruct (mem x m); [auto|]. f_equal. apply IH. intros y. simpl. rewrite H. tauto. }
            apply H. intros x. rewrite in_app_iff. simpl. tauto. }
          rewrite E. unfold with_edges. simpl. rewrite <- app_assoc. reflexivity.
        * simpl in NN'; tauto.
        * intros x X. unfold n1 in *. cbn [edges with_edges] in X. rewrite keys_app, in_app_iff in X. simpl in X.
          change (edges n ++ [(e, Edge (Some 2%nat) None)]) with (edges n ++ map two_edge [e]). destruct X as [X|[<-|[]]].
          -- rewrite edim_app; auto. intros [<-|[]]. tauto.
          -- apply edim_two; simpl; auto.
        * simpl in L; lia.
  Qed.
  Lemma add_node_two x (t : tval) (n : tn tval) legs :
    ~ In x (keys (nodes n)) -> ~ In NN legs -> (forall e, In e (keys (edges n)) -> edim n e = Some 2%nat) ->
    tval_shape t = twos (length legs) ->
    let n1 := with_edges n (edges n ++ map two_edge (fresh_of (keys (edges n)) legs)) in
    (forall e, In e (keys (edges n1)) <-> In e (keys (edges n)) \/ In e legs) /\
    (forall e, In e (keys (edges n1)) -> edim n1 e = Some 2%nat) /\
    add_node x (Some legs) t false n = (plus_node' n1 x legs true t false, Ok x).
  Proof.
    intros Nx NN' Hd Sh n1.
    assert (Hf : forall l a e, In e (fresh_of a l) <-> In e l /\ ~ In e a).
    { induction l as [|y l IH]; intros a e; simpl; [tauto|]. destruct (mem y a) eqn:M.
      - apply mem_In in M. rewrite IH. split; [tauto|]. intros [[->|I] J]; tauto.
      - apply mem_false in M. simpl. rewrite IH. simpl. split; [intros [->|[I J]]; tauto|].
        intros [[->|I] J]; [tauto|]. destruct (eqb_spec y e) as [->|Ne]; [tauto|]. right. split; auto. intros [E|E]; congruence. }
    assert (Hk : forall e, In e (keys (edges n1)) <-> In e (keys (edges n)) \/ In e legs).
    { intros e. unfold n1. cbn [edges with_edges]. rewrite keys_app, keys_two, in_app_iff, Hf.
      destruct (In_dec (fun a b => match eqb_spec a b with ReflectT _ p => left p | ReflectF _ p => right p end) e (keys (edges n))); tauto. }
    assert (Hd1 : forall e, In e (keys (edges n1)) -> edim n1 e = Some 2%nat).
    { intros e X. unfold n1 in *. destruct (mem e (keys (edges n))) eqn:M.
      - apply mem_In in M. rewrite edim_app; auto. rewrite Hf. tauto.
      - apply mem_false in M. apply edim_two; auto. apply Hf. split; auto. apply Hk in X. tauto. }
    split; auto. split; auto.
    apply add_node_grow; auto.
    - intros e I. apply (Hk e). auto.
    - simpl. rewrite Sh. unfold twos. f_equal. change (with_edges n _) with n1.
      rewrite (map_ext_in (edim n1) (fun _ => Some 2%nat) legs) by (intros e I; apply Hd1, Hk; auto).
      clear. induction legs; simpl; f_equal; auto.
    - intros n0 E0. simpl. rewrite Sh. unfold twos, enum. rewrite <- E0. apply add_legs_two; [auto| |lia].
      unfold edim. rewrite E0. exact Hd.
  Qed.

  (** ** the state of the loop *)
  Definition gmeans (x : info S) (sh : list role) (a : chan S) : Prop := i_shape x = Ok sh /\ density_ok (i_val x) sh a.

  Definition reads (Q : list name) (d : list (name * (Z * nat))) (h : name -> bool) (F : name -> name) : Prop :=
    forall q, In q Q -> match get q d with
                        | Some e => h q = true /\ F (ket q) = dname e q "p" /\ F (bra q) = dname e q "d"
                        | None => h q = false
                        end.
  Record dwired (Q : list name) (done : list (cact S)) (names : list name) (lim : Z -> nat -> Prop)
         (w : dwires) (n : tn tval) : Prop := {
    dd_rep : exists D O, represents (both Q) (map (@dbl S) done) (tn_dom n) (tprod n) D O /\
      reads Q (dw_in w) (fun q => starts_in (history (map (@skel S) done) q)) D /\
      reads Q (dw_out w) (fun q => ends_out (history (map (@skel S) done) q)) O;
    dd_on : forall g, In g done -> incl (c_on g) Q /\ fits g;
    dd_in : NoDup (keys (dw_in w)) /\ incl (keys (dw_in w)) Q;
    dd_out : NoDup (keys (dw_out w)) /\ incl (keys (dw_out w)) Q;
    dd_dim : forall e, In e (keys (edges n)) -> edim n e = Some 2%nat;
    dd_names : incl (keys (nodes n)) names;
    dd_complete : complete (VNet n);
    dd_edges : forall e, In e (keys (edges n)) ->
      exists t k q s, e = dname (t, k) q s /\ lim t k /\ history (map (@skel S) done) q <> []
  }.

  Definition at_slot (e : Z * nat) (x : name) : name := match x with NT [q; NS s] => dname e q s | _ => x end.
  Definition wire_of (e : name) : name := match e with NT [_; _; q; s] => NT [q; s] | _ => e end.
  Lemma NoDup_left_inv {X Y} (f : X -> Y) (g : Y -> X) l : (forall x, In x l -> g (f x) = x) -> NoDup l -> NoDup (map f l).
  Proof.
    intros H. induction 1 as [|x l N ND IH]; simpl; constructor.
    - intros I. apply in_map_iff in I as (y & E & I). apply N. rewrite <- (H x), <- E, (H y); simpl; auto.
    - apply IH. intros y I; apply H; simpl; auto.
  Qed.
  Lemma firstn_app_len {X} (l m : list X) n : length l = n -> firstn n (l ++ m) = l.
  Proof. intros <-. rewrite firstn_app, Nat.sub_diag, firstn_all, firstn_O, app_nil_r. auto. Qed.
  Lemma skipn_app_len {X} (l m : list X) n : length l = n -> skipn n (l ++ m) = m.
  Proof. intros <-. rewrite skipn_app, Nat.sub_diag, skipn_all. auto. Qed.

  Lemma dens_step Q done names lim w n k (p : name * gate (info S)) sh a :
    dwired Q done names lim w n -> NoDup Q ->
    gmeans (g_op (snd p)) sh a -> NoDup (g_qubits (snd p)) -> length (g_qubits (snd p)) = length sh ->
    incl (g_qubits (snd p)) Q ->
    let A := CAct (g_qubits (snd p)) (map role_word sh) a in
    (forall q, In q Q -> alternating (history (map (@skel S) done) q ++ word_at (skel A) q)) ->
    ~ In (fst p) names -> ~ lim (g_time (snd p) + 1)%Z k ->
    exists w' n', dens_gate k p w n = (n', Ok w') /\
      dwired Q (done ++ [A]) (fst p :: names)
        (fun t' k' => lim t' k' \/ (k' = k /\ (t' = g_time (snd p) \/ t' = g_time (snd p) + 1)%Z)) w' n'.
  Proof.
    intros [(D & O & R & Hin & Hout) Hon [Ni Ii] [No Io] Hdim Hnames Hcpl Hedges] NQ M Nq Lq Iq A Alt Nx Nl.
    set (g := snd p) in *. set (t := g_time g) in *.
    set (no := at_slot ((t + 1)%Z, k)). set (ni := at_slot (t, k)).
    destruct M as [Msh (v & Ev & Cv & Esh & Val)].
    set (hs := history (map (@skel S) done)) in *.
    set (outs := act_outs (skel A)). set (ins := act_ins (skel A)).
    assert (FA : fits A) by (unfold fits; simpl; rewrite map_length; auto).
    assert (Fd : Forall (@fits S) done) by (apply Forall_forall; intros x X; apply (Hon x X)).
    assert (Nouts : NoDup outs) by (apply NoDup_filter; auto).
    assert (Nins : NoDup ins) by (apply NoDup_filter; auto).
    assert (IoQ : forall q, In q outs -> In q Q) by (intros q X; apply Iq; apply (act_outs_on _ _ X)).
    assert (IiQ : forall q, In q ins -> In q Q) by (intros q X; apply Iq; apply (act_ins_on _ _ X)).
    assert (Lo : length outs = count role_out sh) by (apply act_outs_count; auto).
    assert (Li : length ins = count role_in sh) by (apply act_ins_count; auto).
    (* wires *)
    pose proof (@dens_ins_spec t k ins w Nins) as (Wa1 & Wa2 & Wa3 & Wa5 & Wa6).
    set (za := dens_ins t k ins w) in *.
    pose proof (@dens_outs_spec t k outs (snd za) Nouts) as (Wb1 & Wb2 & Wb3 & Wb5).
    set (zb := dens_outs t k outs (snd za)) in *.
    assert (Hmeet : forall q, In q ins -> hs q <> [] -> ends_out (hs q) = true).
    { intros q X N. rewrite <- (@alternating_meet (hs q) (word_at (skel A) q)); auto.
      - apply act_ins_iff; auto.
      - apply act_ins_iff in X. destruct (word_at (skel A) q); [discriminate|congruence]. }
    assert (Hget : forall q, In q ins -> match get q (dw_out w) with
                       | Some e => is_nil (hs q) = false /\ O (ket q) = dname e q "p" /\ O (bra q) = dname e q "d"
                       | None => is_nil (hs q) = true end).
    { intros q X. specialize (Hout q (IiQ q X)). assert (Y := Hmeet q X). unfold hs in *. destruct (get q (dw_out w)) as [e|].
      - destruct Hout as (H1 & H2). split; auto. destruct (history _ q); [discriminate|auto].
      - destruct (history _ q); auto. rewrite Y in Hout by congruence. discriminate. }
    assert (Hk : forall q, history (map (@dbl S) done) (ket q) = hs q) by (intros; apply history_ket; auto).
    assert (Hb : forall q, history (map (@dbl S) done) (bra q) = hs q) by (intros; apply history_bra; auto).
    set (newq := filter (fun q => is_nil (hs q)) ins).
    assert (Eo2 : act_outs (dbl A) = both outs) by (apply dbl_outs; auto).
    assert (Ei2 : act_ins (dbl A) = both ins) by (apply dbl_ins; auto).
    assert (En2 : filter (fun q => is_nil (history (map (@dbl S) done) q)) (act_ins (dbl A)) = both newq).
    { rewrite Ei2. apply filter_both; intros q _; rewrite ?Hk, ?Hb; auto. }
    assert (Nno : map no (both outs) = dnames (fst zb) "p" ++ dnames (fst zb) "d").
    { rewrite map_both, Wb1. unfold dnames. rewrite !map_map. auto. }
    assert (Esn : snoc_ins (map (@dbl S) done) O (dbl A) ni = dnames (fst za) "p" ++ dnames (fst za) "d").
    { unfold snoc_ins. rewrite Ei2, map_both, Wa1. unfold dnames. rewrite !map_map. f_equal; apply map_ext_in; intros q X; cbn [fst snd];
        rewrite ?Hk, ?Hb; specialize (Hget q X); destruct (get q (dw_out w)) as [e|]; destruct (is_nil (hs q)); try discriminate;
        try reflexivity; try (destruct Hget as [? _]; discriminate); apply Hget. }
    assert (Old : forall q, In q ins -> is_nil (hs q) = false -> In (O (ket q)) (keys (edges n)) /\ In (O (bra q)) (keys (edges n))).
    { intros q X Z. rewrite <- (keys_tn_dom n). assert (Y : hs q <> []) by (destruct (hs q); [discriminate|congruence]).
      split; apply (rep_O R); rewrite ?both_ket, ?both_bra, ?Hk, ?Hb; auto. }
    assert (Fresh_no : forall x, In x (both outs) -> ~ In (no x) (keys (edges n))).
    { intros x X Y. apply both_In in X as (q & _ & [->| ->]); destruct (Hedges _ Y) as (t' & k' & q' & s' & E & L & _);
        cbn in E; unfold dname in E; cbn in E; inversion E as [[E1 E2 E3 E4]]; apply Nat2Z.inj in E2; subst; auto. }
    assert (Fresh_ni : forall x, In x (both newq) -> ~ In (ni x) (keys (edges n))).
    { intros x X Y. apply both_In in X as (q & X & [->| ->]); apply filter_In in X as [_ X];
        destruct (Hedges _ Y) as (t' & k' & q' & s' & E & _ & Hh);
        cbn in E; unfold dname in E; cbn in E; inversion E; subst; destruct (hs q'); try congruence; discriminate. }
    assert (Wno : forall x, In x (both outs) -> wire_of (no x) = x).
    { intros x X. apply both_In in X as (q & _ & [->| ->]); reflexivity. }
    assert (Wni : forall x, In x (both newq) -> wire_of (ni x) = x).
    { intros x X. apply both_In in X as (q & _ & [->| ->]); reflexivity. }
    assert (Nno' : NoDup (map no (both outs))) by (apply (@NoDup_left_inv _ _ no wire_of); auto; apply both_NoDup; auto).
    assert (Nni' : NoDup (map ni (both newq))) by (apply (@NoDup_left_inv _ _ ni wire_of); auto; apply both_NoDup, NoDup_filter; auto).
    assert (Dif : forall x y, In x (both outs) -> In y (both newq) -> no x <> ni y).
    { intros x y X Y E. apply both_In in X as (q & _ & [->| ->]); apply both_In in Y as (r & _ & [->| ->]);
        apply (f_equal (fun x => match x with NT (NI z :: _) => z | _ => 0%Z end)) in E; unfold no, ni, at_slot, ket, bra, dname in E;
        cbn [fst] in E; lia. }
    assert (ND2 : NoDup (map no (both outs) ++ map ni (both newq))).
    { apply NoDup_app_iff. split; auto. split; auto. intros x X Y. apply in_map_iff in X as (q1 & <- & X).
      apply in_map_iff in Y as (q2 & E & Y). symmetry in E. revert E. apply Dif; auto. }
    assert (ND : NoDup (keys (tn_dom n) ++ map no (both outs) ++ map ni (both newq))).
    { rewrite keys_tn_dom. apply NoDup_app_iff. split; [rewrite <- (keys_tn_dom n); apply (rep_nodup R)|]. split; auto.
      intros x X Y. apply in_app_iff in Y as [Y|Y]; apply in_map_iff in Y as (q & <- & Iq'); [apply (Fresh_no q)|apply (Fresh_ni q)]; auto. }
    assert (R' : represents (both Q) (map (@dbl S) done ++ [dbl A]) (tn_dom n ++ seg no (both outs) ++ seg ni (both newq))
                   (fun s => tprod n s * amp (dbl A) (map s (dnames (fst zb) "p" ++ dnames (fst zb) "d")) (map s (dnames (fst za) "p" ++ dnames (fst za) "d")))
                   (snoc_D (map (@dbl S) done) D (dbl A) ni) (snoc_O O (dbl A) no)).
    { rewrite <- Nno, <- Esn. pose proof (@represents_snoc S (both Q) (map (@dbl S) done) (tn_dom n) (tprod n) D O (dbl A) ni no R) as X.
      rewrite En2, Eo2 in X. apply X; auto.
      - apply both_NoDup; auto.
      - apply both_NoDup; auto.
      - apply both_incl; auto.
      - intros h Ih. apply in_map_iff in Ih as (h0 & <- & Ih). apply both_incl. apply Hon; auto.
      - intros x Ix. apply both_In in Ix as (q & Ix & [->| ->]); rewrite ?Hk, ?Hb, ?word_ket, ?word_bra by auto; apply Alt; auto. }
    (* the node *)
    set (es := dnames (fst zb) "p" ++ dnames (fst za) "p" ++ dnames (fst zb) "d" ++ dnames (fst za) "d").
    assert (Les : length es = (count role_out sh + count role_in sh + (count role_out sh + count role_in sh))%nat).
    { unfold es, dnames. rewrite !app_length, !map_length, Wa1, Wb1, !map_length, Lo, Li. lia. }
    assert (NNes : ~ In NN es).
    { unfold es, dnames. rewrite !in_app_iff, !in_map_iff. intros [(? & E & _)|[(? & E & _)|[(? & E & _)|(? & E & _)]]]; discriminate. }
    destruct (@add_node_two (fst p) v n es) as (Hk1 & Hd1 & E1); auto.
    { rewrite Les; auto. }
    set (n1 := with_edges n _) in *.
    set (n2 := plus_node' n1 (fst p) es true v false) in *.
    assert (Pes : Permutation es (map no (both outs) ++ snoc_ins (map (@dbl S) done) O (dbl A) ni)).
    { rewrite Nno, Esn. unfold es. rewrite <- !app_assoc. apply Permutation_app_head. rewrite !app_assoc. apply Permutation_app_tail, Permutation_app_comm. }
    assert (Ins_cases : forall e, In e (snoc_ins (map (@dbl S) done) O (dbl A) ni) <->
               In e (map ni (both newq)) \/ exists q, In q ins /\ is_nil (hs q) = false /\ (e = O (ket q) \/ e = O (bra q))).
    { intros e. unfold snoc_ins. rewrite Ei2, in_map_iff. split.
      - intros (x & E & X). apply both_In in X as (q & X & Y). destruct (is_nil (hs q)) eqn:Z.
        + left. apply in_map_iff. exists x. split.
          * rewrite <- E. destruct Y as [->| ->]; rewrite ?Hk, ?Hb, Z; auto.
          * apply both_In. exists q. split; auto. apply filter_In; auto.
        + right. exists q. split; auto. split; auto. destruct Y as [->| ->]; rewrite ?Hk, ?Hb, Z in E; auto.
      - intros [X|(q & X & Z & Y)].
        + apply in_map_iff in X as (x & <- & X). apply both_In in X as (q & X & Y). apply filter_In in X as [X Z]. exists x.
          split; [destruct Y as [->| ->]; rewrite ?Hk, ?Hb, Z; auto|]. apply both_In; eauto.
        + destruct Y as [->| ->]; [exists (ket q)|exists (bra q)]; rewrite ?Hk, ?Hb, Z; split; auto; apply both_In; eauto. }
    assert (NDe : NoDup (filter (fun e => negb (mem e (keys (edges n)))) es)).
    { apply NoDup_filter. eapply Permutation_NoDup; [apply Permutation_sym; exact Pes|]. apply NoDup_app_iff. split; auto. split.
      - unfold snoc_ins. rewrite Ei2. apply (@NoDup_left_inv _ _ _ wire_of); [|apply both_NoDup; auto]. intros x X.
        apply both_In in X as (q & X & Y). specialize (Hget q X).
        destruct (get q (dw_out w)) as [e|]; [destruct Hget as (Z & G1 & G2)|]; destruct Y as [->| ->]; rewrite ?Hk, ?Hb, ?Z, ?Hget, ?G1, ?G2; reflexivity.
      - intros e X Y. apply in_map_iff in X as (x & <- & X). apply Ins_cases in Y as [Y|(q & I & Z & [Y|Y])].
        + apply in_map_iff in Y as (y & Y & I). symmetry in Y. revert Y. apply Dif; auto.
        + apply (Fresh_no x X). rewrite Y. apply Old; auto.
        + apply (Fresh_no x X). rewrite Y. apply Old; auto. }
    assert (Fr : Permutation (fresh_of (keys (edges n)) es) (map no (both outs) ++ map ni (both newq))).
    { rewrite fresh_of_filter by auto. apply NoDup_Permutation; auto. intros e. rewrite filter_In, negb_true_iff, mem_false.
      split.
      - intros [X Y]. eapply Permutation_in in X; [|exact Pes]. apply in_app_iff in X as [X|X]; [apply in_app_iff; auto|].
        apply Ins_cases in X as [X|(q & I & Z & X)]; [apply in_app_iff; auto|]. exfalso. apply Y. destruct X as [->| ->]; apply Old; auto.
      - intros X. split.
        + eapply Permutation_in; [apply Permutation_sym; exact Pes|]. apply in_app_iff in X as [X|X]; apply in_app_iff; auto.
          right. apply Ins_cases; auto.
        + intros Y. apply in_app_iff in X as [X|X]; apply in_map_iff in X as (x & <- & X); [apply (Fresh_no x)|apply (Fresh_ni x)]; auto. }
    assert (Dom1 : Permutation (tn_dom n ++ seg no (both outs) ++ seg ni (both newq)) (tn_dom n1)).
    { unfold n1. rewrite dom_two. apply Permutation_app_head. unfold seg. rewrite <- (map_map no (fun e => (e, [0;1]%nat))), <- (map_map ni (fun e => (e, [0;1]%nat))), <- map_app.
      apply Permutation_map, Permutation_sym; auto. }
    assert (NK : NoDup (keys (tn_dom n1))).
    { eapply Permutation_NoDup; [apply Permutation_map; exact Dom1|]. apply (rep_nodup R'). }
    assert (Tn2 : forall s, tprod n2 s = tprod n s * tval_value v (map s es)).
    { intros s. unfold tprod, n2, tn_terms. simpl. rewrite map_app, prodf_app. simpl. unfold term_at. simpl. ring. }
    assert (Hh : forall q, history (map (@skel S) (done ++ [A])) q = hs q ++ word_at (skel A) q).
    { intros q. rewrite map_app, history_app. unfold history at 2. simpl. rewrite app_nil_r; auto. }
    exists (snd zb), n2. split.
    - unfold dens_gate. fold g. fold t. rewrite Msh. rewrite (@mbind_eq _ _ _ _ _ n n sh) by reflexivity.
      assert (Po : pick (g_qubits g) (positions role_out sh) = Ok outs).
      { rewrite pick_positions by auto. unfold outs, skel, A. cbn [c_on c_words]. rewrite act_outs_role; auto. }
      assert (Pi : pick (g_qubits g) (positions role_in sh) = Ok ins).
      { rewrite pick_positions by auto. unfold ins, skel, A. cbn [c_on c_words]. rewrite act_ins_role; auto. }
      rewrite Pi, (@mbind_eq _ _ _ _ _ n n ins) by reflexivity.
      rewrite Po, (@mbind_eq _ _ _ _ _ n n outs) by reflexivity.
      rewrite Ev, (@mbind_eq _ _ _ _ _ n n v) by reflexivity.
      fold za. fold zb. fold es. rewrite (@mbind_eq _ _ _ _ _ n n2 (fst p)) by exact E1. reflexivity.
    - constructor.
      + exists (snoc_D (map (@dbl S) done) D (dbl A) ni), (snoc_O O (dbl A) no). split; [|split].
        * rewrite map_app. eapply represents_change; [exact R'|..].
          -- exact NK.
          -- intros x vs b X Y. apply (rep_bits R') with (a := x) (vs := vs); auto. eapply Permutation_in; [apply Permutation_sym; exact Dom1|exact X].
          -- intros s s' Es. rewrite !Tn2. f_equal.
             ++ apply (rep_F R). intros x X. apply (Es x). change (tn_dom n2) with (tn_dom n1). rewrite keys_tn_dom in *. apply Hk1; auto.
             ++ f_equal. apply map_ext_in. intros x X. apply (Es x). change (tn_dom n2) with (tn_dom n1). rewrite keys_tn_dom. apply Hk1; auto.
          -- intros x X. change (tn_dom n2) with (tn_dom n1). eapply Permutation_in; [apply Permutation_map; exact Dom1|exact X].
          -- intros f Df. change (tn_dom n2) with (tn_dom n1).
             transitivity (esum (tn_dom n1) (fun s => tprod n s * amp (dbl A) (map s (dnames (fst zb) "p" ++ dnames (fst zb) "d"))
                                                                    (map s (dnames (fst za) "p" ++ dnames (fst za) "d")) * f s) env0).
             { apply esum_perm; auto; [apply (rep_nodup R')|]. intros s s' Es. f_equal; [f_equal|].
               - apply (depends_exten (rep_F R)); auto.
               - f_equal; apply map_ext; auto.
               - apply (depends_exten Df); auto. }
             apply esum_ext; auto. intros s [Rs _].
             assert (Bs : forall e, In e es -> (s e < 2)%nat).
             { intros e Ie. assert (Ie' : In e (keys (edges n1))) by (apply Hk1; auto). destruct (key_get _ _ Ie') as [ed Ge]. apply get_In in Ge.
               assert (X : In (e, edge_values ed) (tn_dom n1)) by (unfold tn_dom; apply in_map_iff; exists (e, ed); auto).
               apply (rep_bits R') with (a := e) (vs := edge_values ed); [|apply Rs; auto].
               eapply Permutation_in; [apply Permutation_sym; exact Dom1|exact X]. }
             rewrite Tn2. f_equal. f_equal. unfold es. rewrite !map_app. unfold dbl, A. cbn [amp c_chan]. fold A. fold outs. fold ins.
             assert (L1 : forall s0, length (dnames (fst zb) s0) = length outs) by (intros; unfold dnames; rewrite map_length, Wb1, map_length; auto).
             assert (L2 : forall s0, length (dnames (fst za) s0) = length ins) by (intros; unfold dnames; rewrite map_length, Wa1, map_length; auto).
             rewrite !firstn_app_len, !skipn_app_len by (rewrite map_length; auto).
             assert (Bd : forall l m, incl l es -> length l = m -> bits m (map s l)).
             { intros l m I L. split; [rewrite map_length; auto|]. apply Forall_forall. intros b Ib. apply in_map_iff in Ib as (e & <- & Ie). auto. }
             symmetry. apply Val; apply Bd; try (rewrite ?L1, ?L2; auto); intros e Ie; unfold es; rewrite !in_app_iff; auto.
        * intros q Q0. rewrite Wb3, Wa3, Hh. unfold snoc_D. rewrite En2.
          rewrite (mem_ext (ket q) (both newq) (map ket newq)), (mem_ext (bra q) (both newq) (map bra newq)) by (rewrite ?both_ket, ?both_bra, in_map_iff; split; [intros; eexists; eauto|intros (y & Y & I); inversion Y; subst; auto]).
          assert (Em : mem (ket q) (map ket newq) = mem q newq).
          { apply eq_true_iff_eq. rewrite !mem_In, in_map_iff. split; [intros (y & Y & I); inversion Y; subst; auto|eauto]. }
          assert (Em' : mem (bra q) (map bra newq) = mem q newq).
          { apply eq_true_iff_eq. rewrite !mem_In, in_map_iff. split; [intros (y & Y & I); inversion Y; subst; auto|eauto]. }
          rewrite Em, Em'. clear Em Em'.
          assert (E : mem q ins && missing (dw_out w) q = mem q newq).
          { apply eq_true_iff_eq. rewrite andb_true_iff, !mem_In. unfold newq. rewrite filter_In. unfold missing. split.
            - intros [X Y]. specialize (Hget q X). destruct (get q (dw_out w)); [discriminate|]. auto.
            - intros [X Y]. specialize (Hget q X). destruct (get q (dw_out w)); [destruct Hget; congruence|]. auto. }
          rewrite E. destruct (mem q newq) eqn:Mn.
          -- apply mem_In in Mn. unfold newq in Mn. apply filter_In in Mn as [X Z]. split; [|split; reflexivity].
             destruct (hs q); [|discriminate]. simpl. apply act_ins_iff in X. auto.
          -- specialize (Hin q Q0). cbv beta in Hin. fold (hs q) in Hin.
             assert (Es : starts_in (hs q ++ word_at (skel A) q) = starts_in (hs q)).
             { destruct (hs q) as [|c h] eqn:Hq; [|auto]. simpl. destruct (starts_in (word_at (skel A) q)) eqn:Z; auto.
               apply mem_false in Mn. exfalso. apply Mn, filter_In. split; [apply act_ins_iff; auto|]. rewrite Hq; auto. }
             rewrite Es. exact Hin.
        * intros q Q0. rewrite Wb2, Wa2, Hh. unfold snoc_O. rewrite Eo2.
          assert (Em : mem (ket q) (both outs) = mem q outs) by (apply eq_true_iff_eq; rewrite !mem_In; apply both_ket).
          assert (Em' : mem (bra q) (both outs) = mem q outs) by (apply eq_true_iff_eq; rewrite !mem_In; apply both_bra).
          rewrite Em, Em'. destruct (mem q outs) eqn:Mo.
          -- apply mem_In, act_outs_iff in Mo. split; [|split; reflexivity].
             rewrite ends_out_app; auto. destruct (word_at (skel A) q); [discriminate|congruence].
          -- apply mem_false in Mo. unfold outs in Mo. rewrite act_outs_iff in Mo. apply not_true_is_false in Mo.
             destruct (mem q ins) eqn:Mi.
             ++ apply mem_In, act_ins_iff in Mi. rewrite ends_out_app; auto. destruct (word_at (skel A) q); [discriminate|congruence].
             ++ apply mem_false in Mi. unfold ins in Mi. rewrite act_ins_iff in Mi. specialize (Hout q Q0). cbv beta in Hout. fold (hs q) in Hout.
                destruct (word_at (skel A) q) as [|c h] eqn:Wq; [rewrite app_nil_r; exact Hout|].
                rewrite ends_out_app by congruence. rewrite Mo.
                assert (Z : ends_out (hs q) = false).
                { destruct (hs q) as [|c' h'] eqn:Hq; auto. rewrite <- (@alternating_meet (c' :: h') (c :: h)); try congruence.
                  - apply not_true_is_false. auto.
                  - rewrite <- Hq, <- Wq. apply Alt; auto. }
                rewrite Z in Hout. destruct (get q (dw_out w)); [destruct Hout; discriminate|auto].
      + intros h X. apply in_app_iff in X as [X|[<-|[]]]; auto.
      + rewrite Wb3. split; auto. intros q X. apply get_key in X. unfold missing in X. rewrite Wa3 in X.
        destruct (mem q ins) eqn:Mi; [apply IiQ, mem_In; auto|]. simpl in X. apply Ii, get_key. auto.
      + split; auto. intros q X. apply get_key in X. unfold missing in X. rewrite Wb2, Wa2 in X.
        destruct (mem q outs) eqn:Mo; [apply IoQ, mem_In; auto|]. destruct (mem q ins); [discriminate|]. apply Io, get_key. auto.
      + exact Hd1.
      + unfold n2; simpl. rewrite keys_app. intros x X. apply in_app_iff in X as [X|[<-|[]]]; simpl; auto.
      + apply complete_plus; auto. inversion Hcpl as [|? Hc| |]; subst. constructor. exact Hc.
      + intros e I. change (edges n2) with (edges n1) in I. apply Hk1 in I. destruct (mem e (keys (edges n))) eqn:Me.
        * apply mem_In in Me. destruct (Hedges e Me) as (t' & k' & q' & s' & E & L & H). exists t', k', q', s'. split; auto. split; auto.
          rewrite Hh. fold (hs q') in H. destruct (hs q'); simpl; congruence.
        * apply mem_false in Me. destruct I as [I|I]; [tauto|].
          assert (J : In e (map no (both outs) ++ map ni (both newq))).
          { eapply Permutation_in; [exact Fr|]. rewrite fresh_of_filter by auto. apply filter_In. rewrite negb_true_iff, mem_false. auto. }
          apply in_app_iff in J as [J|J]; apply in_map_iff in J as (x & <- & X); apply both_In in X as (q & X & Y).
          -- exists (t + 1)%Z, k, q. assert (N : history (map (@skel S) (done ++ [A])) q <> []).
             { rewrite Hh. apply act_outs_iff in X. destruct (word_at (skel A) q); [discriminate|]. intros Z. apply app_eq_nil in Z as [_ Z]. discriminate. }
             destruct Y as [->| ->]; [exists "p"%string|exists "d"%string]; split; [reflexivity|auto|reflexivity|auto].
          -- exists t, k, q. apply filter_In in X as [X _]. assert (N : history (map (@skel S) (done ++ [A])) q <> []).
             { rewrite Hh. apply act_ins_iff in X. destruct (word_at (skel A) q); [discriminate|]. intros Z. apply app_eq_nil in Z as [_ Z]. discriminate. }
             destruct Y as [->| ->]; [exists "p"%string|exists "d"%string]; split; [reflexivity|auto|reflexivity|auto].
  Qed.
End Step.
