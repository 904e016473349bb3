(** Invariants of the hypergraph under the edit operations. *)
From Verif Require Import Base ModelTN.
Set Implicit Arguments.

(** ** inversion of monadic programs *)
Section MonadFacts.
  Context {T : Type}.
  Lemma mbind_ok {A B} (m : M A) (f : A -> M B) (n n' : tn T) b :
    mbind m f n = (n', Ok b) -> exists n1 a, m n = (n1, Ok a) /\ f a n1 = (n', Ok b).
  Proof.
    unfold mbind. destruct (m n) as [n1 [a|e]]; [|intros E; inversion E].
    intros E; eauto.
  Qed.
  Lemma mbind_fst {A B} (m : M A) (f : A -> M B) (n : tn T) :
    fst (mbind m f n) = match m n with (n1, Ok a) => fst (f a n1) | (n1, Err _) => n1 end.
  Proof. unfold mbind. destruct (m n) as [n1 [a|e]]; auto. Qed.
End MonadFacts.

Ltac minv H :=
  repeat (match type of H with
          | mbind getst ?f ?n = ?r => change (f n n = r) in H; cbv beta in H
          | mbind (ret ?a) ?f ?n = ?r => change (f a n = r) in H; cbv beta in H
          | mbind (modify ?g) ?f ?n = ?r => change (f tt (g n) = r) in H; cbv beta in H
          | mbind _ _ _ = (_, Ok _) =>
              let n1 := fresh "n" in let a := fresh "a" in let E := fresh "E" in
              apply mbind_ok in H as (n1 & a & E & H)
          | getst _ = _ => unfold getst in H; inversion H; subst; clear H
          | modify _ _ = _ => unfold modify in H; inversion H; subst; clear H
          | ret _ _ = _ => unfold ret in H; inversion H; subst; clear H
          | raise _ _ = (_, Ok _) => discriminate H
          end).
Ltac minvs :=
  repeat match goal with
         | H : mbind _ _ _ = (_, Ok _) |- _ => progress (minv H)
         | H : getst _ = _ |- _ => minv H
         | H : modify _ _ = _ |- _ => minv H
         | H : ret _ _ = _ |- _ => minv H
         | H : raise _ _ = (_, Ok _) |- _ => discriminate H
         | a : unit |- _ => destruct a
         end.

Section Inv.
  Context {T : Type} `{PT : Payload T}.
  Notation net := (tn T).
  Implicit Types (n : net) (x e : name).

  (** every state, whatever the outcome *)
  Definition always {A} (R : net -> net -> Prop) (m : M A) : Prop := forall n, R n (fst (m n)).

  Lemma always_bind {A B} (R : net -> net -> Prop) (m : M A) (f : A -> M B) :
    (forall a b c, R a b -> R b c -> R a c) ->
    always R m -> (forall a, always R (f a)) -> always R (mbind m f).
  Proof.
    intros Tr Hm Hf n. rewrite mbind_fst. specialize (Hm n).
    destruct (m n) as [n1 [a|e]]; simpl in *; auto. eapply Tr; eauto. apply Hf.
  Qed.
  Lemma always_foreach {X} (R : net -> net -> Prop) (f : X -> M unit) l :
    (forall a, R a a) -> (forall a b c, R a b -> R b c -> R a c) ->
    (forall y, always R (f y)) -> always R (foreach f l).
  Proof.
    intros Rf Tr Hf. induction l as [|x r IH]; simpl; [intros n; apply Rf|].
    apply always_bind; auto.
  Qed.

  (** ** growth of the edge table *)
  Definition edge_grows (a b : edge) : Prop :=
    e_fix b = e_fix a /\ forall d, e_dim a = Some d -> e_dim b = Some d.
  Record grows n n' : Prop := {
    g_nodes : nodes n' = nodes n;
    g_adj : adj n' = adj n;
    g_opens : opens n' = opens n;
    g_keys : exists new, keys (edges n') = keys (edges n) ++ new /\
               (NoDup (keys (edges n)) -> NoDup (keys (edges n')));
    g_get : forall e ed, get e (edges n) = Some ed ->
              exists ed', get e (edges n') = Some ed' /\ edge_grows ed ed';
    g_new : forall e ed', get e (edges n) = None -> get e (edges n') = Some ed' -> e_fix ed' = None
  }.
  Lemma edge_grows_refl a : edge_grows a a.
  Proof. split; auto. Qed.
  Lemma edge_grows_trans a b c : edge_grows a b -> edge_grows b c -> edge_grows a c.
  Proof. intros [F1 D1] [F2 D2]. split; [congruence|auto]. Qed.
  Lemma grows_refl n : grows n n.
  Proof.
    constructor; auto.
    - exists []. rewrite app_nil_r; auto.
    - intros e ed E; exists ed; split; auto. apply edge_grows_refl.
    - congruence.
  Qed.
  Lemma grows_trans n1 n2 n3 : grows n1 n2 -> grows n2 n3 -> grows n1 n3.
  Proof.
    intros [N1 A1 O1 [k1 [K1 D1]] G1 W1] [N2 A2 O2 [k2 [K2 D2]] G2 W2]. constructor; try congruence.
    - exists (k1 ++ k2). rewrite K2, K1, app_assoc. split; auto. intros ND.
      specialize (D1 ND). specialize (D2 D1). rewrite K2, K1 in D2. auto.
    - intros e ed E. apply G1 in E as [ed1 [E1 L1]]. apply G2 in E1 as [ed2 [E2 L2]].
      exists ed2; split; auto. eapply edge_grows_trans; eauto.
    - intros e ed E E'. destruct (get e (edges n2)) as [ed2|] eqn:E2.
      + pose proof (W1 _ _ E E2) as F. apply G2 in E2 as [ed3 [E3 L]].
        rewrite E' in E3; inversion E3; subst. destruct L as [L _]; congruence.
      + apply (W2 _ _ E2 E').
  Qed.

  Lemma set_keys_same {B} k (v w : B) l : get k l = Some w -> keys (set k v l) = keys l.
  Proof.
    intros E. apply get_Some_key in E. rewrite keys_set. unfold has.
    apply mem_In in E. rewrite E; auto.
  Qed.

  Lemma grows_set n e ed ed' :
    get e (edges n) = Some ed -> edge_grows ed ed' -> grows n (with_edges n (set e ed' (edges n))).
  Proof.
    intros E L. constructor; simpl; auto.
    - exists []. rewrite (set_keys_same _ _ _ E), app_nil_r; auto.
    - intros e' ed0 E0. rewrite get_set. destruct (eqb_spec e' e) as [->|N].
      + rewrite E in E0; inversion E0; subst. eauto.
      + exists ed0; split; auto. apply edge_grows_refl.
    - intros e' ed0 E0. rewrite get_set. destruct (eqb_spec e' e) as [->|N]; congruence.
  Qed.
  Lemma get_app {A B} `{Eqb A} (k : A) (l m : list (A * B)) :
    get k (l ++ m) = match get k l with Some v => Some v | None => get k m end.
  Proof. induction l as [|[a b] r IH]; simpl; auto. destruct (eqb k a); auto. Qed.
  Lemma grows_app n e d :
    ~ In e (keys (edges n)) -> grows n (with_edges n (edges n ++ [(e, Edge d None)])).
  Proof.
    intros N. constructor; simpl; auto.
    - exists [e]. rewrite keys_app. split; auto. intros ND. apply NoDup_snoc; auto.
    - intros e' ed E. exists ed. rewrite get_app, E. split; auto. apply edge_grows_refl.
    - intros e' ed E. rewrite get_app, E. cbn [get]. destruct (eqb_spec e' e) as [Q|Q]; intros Q2; inversion Q2; auto.
  Qed.
  Lemma grows_idc n k : grows n (with_idc n k).
  Proof. destruct (grows_refl n). constructor; simpl; auto. Qed.

  Lemma update_dim1_grows e d : always grows (update_dim1 e d).
  Proof.
    intros n. unfold update_dim1, mbind, getst. destruct (get e (edges n)) as [ed|] eqn:E.
    - destruct (e_dim ed) as [x|] eqn:D.
      + destruct d as [y|]; [destruct (x =? y)|]; apply grows_refl.
      + simpl. apply grows_set with ed; auto. split; simpl; auto. congruence.
    - apply grows_refl.
  Qed.
  Lemma update_dimension_grows dic : always grows (update_dimension dic).
  Proof.
    apply always_foreach; [apply grows_refl|apply grows_trans|]. intros; apply update_dim1_grows.
  Qed.
  Lemma add_edge_grows e d : always grows (add_edge e d).
  Proof.
    intros n. unfold add_edge.
    assert (Q : forall e n0 (k : nat), n0 = n \/ n0 = with_idc n k -> grows n
      (fst (mbind (if has e (edges n) then match d with
                                | None => ret tt
                                | Some _ => update_dimension [(e, d)]
                                end
             else modify (fun n => with_edges n (edges n ++ [(e, Edge d None)])))
             (fun _ => ret e) n0))).
    { intros e0 n0 k Hn. assert (G : grows n n0) by (destruct Hn; subst; [apply grows_refl|apply grows_idc]).
      assert (En : edges n0 = edges n) by (destruct Hn; subst; auto).
      rewrite mbind_fst. destruct (has e0 (edges n)) eqn:Hs.
      - destruct d as [d|].
        + pose proof (update_dimension_grows [(e0, Some d)] n0) as G1.
          destruct (update_dimension _ n0) as [n1 [[]|]]; simpl in *; eapply grows_trans; eauto.
        + simpl; auto.
      - simpl. eapply grows_trans; [exact G|]. apply grows_app.
        rewrite En. intros I; apply has_In in I. congruence. }
    destruct e; unfold mbind at 1, getst; unfold mbind at 1; simpl;
      [eapply Q; right; reflexivity|apply Q with (k := 0); auto..].
  Qed.
  Lemma add_leg_grows sh p : always grows (add_leg sh p).
  Proof.
    unfold add_leg. destruct sh as [l|].
    - destruct (nth_error l (fst p)).
      + apply always_bind; [apply grows_trans|apply add_edge_grows|intros a n; apply grows_refl].
      + intros n; apply grows_refl.
    - apply always_bind; [apply grows_trans|apply add_edge_grows|intros a n; apply grows_refl].
  Qed.

  (** add_edge with a proper name: the edge is registered afterwards *)
  Lemma add_edge_ok e d n n' r :
    add_edge e d n = (n', Ok r) -> grows n n' /\ In r (keys (edges n')) /\ (e <> NN -> r = e).
  Proof.
    intros E. pose proof (add_edge_grows e d n) as G. rewrite E in G; simpl in G.
    split; auto. unfold add_edge in E. minv E.
    assert (Q : edges n0 = edges n /\ (e <> NN -> r = e)).
    { destruct e; minvs; simpl; auto; split; auto; congruence. }
    destruct Q as [En Q]. split; auto.
    destruct (has r (edges n)) eqn:Hs.
    - apply has_In in Hs. rewrite <- En in Hs.
      assert (G2 : grows n0 n').
      { destruct d as [d|]; [|minvs; apply grows_refl].
        pose proof (update_dimension_grows [(r, Some d)] n0) as G1. rewrite E1 in G1; auto. }
      destruct (g_keys G2) as [new [K _]]. rewrite K, in_app_iff; auto.
    - minvs. simpl. rewrite keys_app, in_app_iff; simpl; auto.
  Qed.

  (** ** well-formed networks (the property C12) *)
  Record wf n : Prop := {
    wf_nodes : NoDup (keys (nodes n));
    wf_edges : NoDup (keys (edges n));
    wf_legs : forall x nd e, get x (nodes n) = Some nd -> In e (n_legs nd) -> In e (keys (edges n));
    wf_adj : forall x e, In (x, e) (adj n) <-> exists nd, get x (nodes n) = Some nd /\ In e (n_legs nd);
    wf_adj_nodup : NoDup (adj n);
    wf_opens : incl (opens n) (keys (edges n));
    wf_fix : forall e ed fx, get e (edges n) = Some ed -> e_fix ed = Some fx ->
               exists d, e_dim ed = Some d /\ Forall (fun v => v < d) fx
  }.

  Lemma grows_wf n n' : grows n n' -> wf n -> wf n'.
  Proof.
    intros [N A O [new [K D]] G W] [W1 W2 W3 W4 W5 W6 W7].
    constructor; rewrite ?N, ?A, ?O; auto.
    - intros x nd e E I. rewrite K, in_app_iff. left; eauto.
    - rewrite K. intros x Ix. rewrite in_app_iff; auto.
    - intros e ed fx E F. destruct (get e (edges n)) as [ed0|] eqn:E0.
      + destruct (G _ _ E0) as [ed' [E' [L1 L2]]]. rewrite E in E'; inversion E'; subst.
        rewrite L1 in F. destruct (W7 _ _ _ E0 F) as [d [Q1 Q2]]. exists d; auto.
      + rewrite (W _ _ E0 E) in F; discriminate.
  Qed.

  Lemma empty_wf : wf (@empty_tn T).
  Proof.
    constructor; simpl; try (constructor; fail); try (intros; discriminate).
    - intros x e; split; [intros []|intros [nd [E _]]; discriminate].
    - intros a [].
  Qed.

  Lemma add_edge_wf e d n n' r : add_edge e d n = (n', Ok r) -> wf n -> wf n'.
  Proof. intros E W. apply add_edge_ok in E as [G _]. eapply grows_wf; eauto. Qed.

  Lemma with_opens_wf n l : wf n -> incl l (keys (edges n)) -> wf (with_opens n l).
  Proof. intros [] I. constructor; simpl; auto. Qed.

  Lemma open_edge_spec e d n n' r :
    open_edge e d n = (n', Ok r) -> e <> NN ->
    exists n1, grows n n1 /\ In e (keys (edges n1)) /\ n' = with_opens n1 (opens n1 ++ [e]).
  Proof.
    unfold open_edge. intros E NE. minvs. destruct (has e (edges n)) eqn:Hs.
    - minvs. exists n0. split; [apply grows_refl|]. split; auto. apply has_In; auto.
    - minvs. apply add_edge_ok in E as (G & I & Q). rewrite Q in I by auto. eauto.
  Qed.
  Lemma open_edge_wf e d n n' r : open_edge e d n = (n', Ok r) -> e <> NN -> wf n -> wf n'.
  Proof.
    intros E NE W. apply open_edge_spec in E as (n1 & G & I & ->); auto.
    pose proof (grows_wf G W) as W1. apply with_opens_wf; auto.
    intros a Ia. apply in_app_iff in Ia as [Ia|[<-|[]]]; auto. apply (wf_opens W1); auto.
  Qed.
  Lemma close_edge_wf e n n' r : close_edge e n = (n', Ok r) -> wf n -> wf n'.
  Proof.
    unfold close_edge. intros E W. minvs. apply with_opens_wf; auto.
    intros a Ia. apply filter_In in Ia as [Ia _]. apply (wf_opens W); auto.
  Qed.

  (** pop_node / remove_node *)
  Lemma pop_node_spec x n n' nd :
    pop_node x n = (n', Ok nd) -> get x (nodes n) = Some nd /\ n' = graph_del_node n x.
  Proof.
    unfold pop_node. intros E. minvs. destruct (get x (nodes n)) as [nd0|] eqn:G; minvs; auto.
  Qed.
  Lemma get_del {A B} `{Eqb A} (k k' : A) (l : list (A * B)) :
    get k (del k' l) = if eqb k k' then None else get k l.
  Proof.
    destruct (eqb_spec k k') as [->|N]; [apply get_del_eq|apply get_del_neq; congruence].
  Qed.
  Lemma graph_del_node_wf n x : wf n -> wf (graph_del_node n x).
  Proof.
    intros [W1 W2 W3 W4 W5 W6 W7]. constructor; simpl; auto.
    - apply keys_del_NoDup; auto.
    - intros y nd e. rewrite get_del. destruct (eqb_spec y x); [discriminate|]. eauto.
    - intros y e. rewrite filter_In, W4, get_del. simpl. rewrite negb_true_iff, eqb_neq.
      destruct (eqb_spec y x) as [->|N].
      + split; [intros [_ ?]; congruence|intros [nd [? _]]; discriminate].
      + split; [tauto|]. intros; split; auto; congruence.
    - apply NoDup_filter'; auto.
  Qed.
  Lemma pop_node_wf x n n' nd : pop_node x n = (n', Ok nd) -> wf n -> wf n'.
  Proof. intros E W. apply pop_node_spec in E as [_ ->]. apply graph_del_node_wf; auto. Qed.
  Lemma remove_node_wf x n n' nd : remove_node x n = (n', Ok nd) -> wf n -> wf n'.
  Proof.
    unfold remove_node. intros E W. minvs. apply pop_node_spec in E0 as [G ->].
    apply with_opens_wf; [apply graph_del_node_wf; auto|].
    simpl. intros e Ie. apply in_app_iff in Ie as [Ie|Ie]; [apply (wf_opens W); auto|].
    eapply wf_legs; eauto.
  Qed.

  (** fix_edge *)
  Lemma fix_edge_spec e vals c n n' r :
    fix_edge e vals c n = (n', Ok r) ->
    exists ed d, get e (edges n) = Some ed /\ e_dim ed = Some d /\ Forall (fun v => v < d) vals /\
      exists fx, n' = with_edges n (set e (Edge (Some d) (Some fx)) (edges n)) /\
        match e_fix ed with
        | None => fx = filter (fun v => mem v vals) (seq 0 d)
        | Some old => if c then exists v r0 r1 r2, fx = v :: r0 /\ old = r1 :: r0 /\
                                  filter (fun v => mem v vals) (seq 0 d) = v :: r2
                      else fx = filter (fun v => mem v vals) old
        end.
  Proof.
    unfold fix_edge. intros E. minvs. destruct (get e (edges n)) as [ed|] eqn:G; minvs.
    destruct (e_dim ed) as [d|] eqn:D; minvs.
    destruct (forallb _ vals) eqn:F; minvs.
    exists ed, d. repeat split; auto.
    { apply Forall_forall. intros v Iv. rewrite forallb_forall in F.
      apply Nat.ltb_lt. apply F; auto. }
    destruct (e_fix ed) as [old|].
    - destruct c.
      + destruct (filter _ (seq 0 d)) as [|v r'] eqn:Fv; minvs.
        destruct old as [|o old]; minvs. eexists; split; [reflexivity|]. repeat eexists.
      + minvs. eexists; split; reflexivity.
    - minvs. eexists; split; reflexivity.
  Qed.
  Lemma Forall_filter {X} (P : X -> Prop) f l : Forall P l -> Forall P (filter f l).
  Proof.
    rewrite !Forall_forall. intros Q x Ix. apply filter_In in Ix as [Ix _]; auto.
  Qed.
  Lemma filter_seq_lt f d : Forall (fun v => v < d) (filter f (seq 0 d)).
  Proof.
    apply Forall_filter. apply Forall_forall. intros v Iv. apply in_seq in Iv. lia.
  Qed.
  Lemma set_edge_wf n e ed d fx :
    wf n -> get e (edges n) = Some ed ->
    match fx with Some l => exists d', d = Some d' /\ Forall (fun v => v < d') l | None => True end ->
    wf (with_edges n (set e (Edge d fx) (edges n))).
  Proof.
    intros [W1 W2 W3 W4 W5 W6 W7] G F. pose proof (set_keys_same e (Edge d fx) _ G) as K.
    constructor; simpl; rewrite ?K; auto.
    intros e' ed' fx'. rewrite get_set. destruct (eqb_spec e' e) as [->|N].
    - intros Q; inversion Q; subst. simpl. intros ->. destruct F as [d' [-> F]]. eauto.
    - apply W7.
  Qed.
  Lemma fix_edge_wf e vals c n n' r : fix_edge e vals c n = (n', Ok r) -> wf n -> wf n'.
  Proof.
    intros E W. apply fix_edge_spec in E as (ed & d & G & D & F & fx & -> & Q).
    eapply set_edge_wf; eauto. exists d; split; auto.
    destruct (e_fix ed) as [old|] eqn:Fx.
    - destruct (wf_fix W _ G Fx) as [d' [D' Fo]]. rewrite D in D'; inversion D'; subst d'.
      destruct c.
      + destruct Q as (v & r0 & r1 & r2 & -> & -> & Q). inversion Fo; subst. constructor; auto.
        assert (I : In v (filter (fun v => mem v vals) (seq 0 d))) by (rewrite Q; simpl; auto).
        apply filter_In in I as [I _]. apply in_seq in I; lia.
      + subst. apply Forall_filter; auto.
    - subst. apply filter_seq_lt.
  Qed.
  Lemma del_nth_incl {X} i (l : list X) : incl (del_nth i l) l.
  Proof.
    unfold del_nth. intros x Ix. apply in_app_iff in Ix as [Ix|Ix].
    - rewrite <- (firstn_skipn i l). apply in_app_iff; auto.
    - rewrite <- (firstn_skipn (S i) l). apply in_app_iff; auto.
  Qed.
  Lemma fix_index_spec i vals n n' r :
    fix_index i vals n = (n', Ok r) ->
    exists e n1, nth_error (opens n) i = Some e /\ fix_edge e vals false n = (n1, Ok tt) /\
                 n' = with_opens n1 (del_nth i (opens n1)).
  Proof.
    unfold fix_index. intros E. minvs. destruct (nth_error _ _) as [e|] eqn:G; minvs.
    exists e, n0; repeat split; auto.
  Qed.
  Lemma fix_index_wf i vals n n' r : fix_index i vals n = (n', Ok r) -> wf n -> wf n'.
  Proof.
    intros E W. apply fix_index_spec in E as (e & n1 & G & E & ->).
    apply fix_edge_wf in E; auto. apply with_opens_wf; auto.
    intros a Ia. apply (wf_opens E). eapply del_nth_incl; eauto.
  Qed.
End Inv.
