(** * C06: expanding nested networks preserves the value *)
From Verif Require Import Base Scalar NetSpec ModelArray ModelTN TNInv TNOps TNSpec TNDelta ModelHist TNHist TNValue TNExact
  TNEdit ModelVal ModelNest NestSpec NestSub NestEnc NestJoin NestExp Examples Props_Nest.
Set Implicit Arguments.

(** expand() of a network in which networks are nested at most [k] deep: it succeeds whatever the order
    in which Python iterates over its sets, no network is left inside the result, and the result has the
    same value at every open index and the same shape.  The model's recursion takes a bound on the depth,
    any bound above [k] will do. *)
Theorem C06_expand :
  forall (S : scalar) (ord : list name -> list name) (n : tn (tval S)) (k fuel : nat),
    (forall l, Permutation (ord l) l) -> regular n -> expandable k n (keys (nodes n)) -> k < fuel ->
    exists n', expand ord fuel None n = (n', Ok tt) /\
      (forall o, value n' o = value n o) /\
      map (edim n') (opens n') = map (edim n) (opens n) /\
      flat n' /\ regular n'.
Proof.
  intros S ord n k fuel Ho R X L. destruct fuel as [|fuel]; [lia|].
  destruct (@expand_ok S ord Ho fuel n None (keys (nodes n)) R eq_refl) as (n' & E & [A B C D F H]).
  - apply R.
  - intros x Ix; auto.
  - eapply expandable_le; [|exact X]. lia.
  - exists n'. split; auto. split; auto. split; auto. split; auto.
    intros x nd G. destruct (D x nd G) as [P|(Nx & nd0 & G0 & _)]; auto. exfalso. apply Nx. eapply get_Some_key; eauto.
Qed.
Print Assumptions C06_expand.

(** expand(nodes): only the nodes listed are expanded, every other node keeps its name and its tensor. *)
Theorem C06_expand_nodes :
  forall (S : scalar) (ord : list name -> list name) (n : tn (tval S)) (l : list name) (k fuel : nat),
    (forall l, Permutation (ord l) l) -> regular n -> NoDup l -> incl l (keys (nodes n)) -> expandable k n l -> k < fuel ->
    exists n', expand ord fuel (Some l) n = (n', Ok tt) /\
      (forall o, value n' o = value n o) /\
      map (edim n') (opens n') = map (edim n) (opens n) /\
      (forall y nd, get y (nodes n) = Some nd -> ~ In y l -> exists nd', get y (nodes n') = Some nd' /\ n_val nd' = n_val nd) /\
      (forall y m, held n' y m -> held n y m /\ ~ In y l) /\ regular n'.
Proof.
  intros S ord n l k fuel Ho R ND I X L. destruct fuel as [|fuel]; [lia|].
  destruct (@expand_ok S ord Ho fuel n (Some l) l R eq_refl ND I) as (n' & E & [A B C D F H]).
  - eapply expandable_le; [|exact X]. lia.
  - exists n'. split; auto. split; auto. split; auto. split; [|split]; auto.
    intros y m (nd & G & V). destruct (D y nd G) as [P|(Ny & nd0 & G0 & Q)]; [rewrite V in P; destruct P|].
    split; auto. exists nd0. split; congruence.
Qed.
Print Assumptions C06_expand_nodes.

(** Networks whose nodes and edges are all named by integers, at every depth, can always be expanded. *)
Theorem C06_integer_names :
  forall (S : scalar) (ord : list name -> list name) (n : tn (tval S)) (k fuel : nat),
    (forall l, Permutation (ord l) l) -> regular n -> int_named k n -> k < fuel ->
    exists n', expand ord fuel None n = (n', Ok tt) /\
      (forall o, value n' o = value n o) /\ map (edim n') (opens n') = map (edim n) (opens n) /\ flat n' /\ regular n'.
Proof. intros S ord n k fuel Ho R I L. apply C06_expand with (k := k); auto. apply int_named_expandable; auto. Qed.
Print Assumptions C06_integer_names.

(** ** a network nested two deep on which the hypotheses hold *)
(** a 2x3 matrix with edge 0 open, edge 1 open *)
Definition deep2_calls : list (call ZT) :=
  [CAddNode (NI 0) (Some [NI 0; NI 1]) (zmat 2 3 [1;2;3;4;5;6]%Z) false; COpenEdge (NI 0) None; COpenEdge (NI 1) None].
Definition deep2 := zbuild deep2_calls.
(** the matrix times a vector, its row index open twice: a diagonal matrix; and a closed edge fixed to 1 *)
Definition deep1_calls : list (call ZT) :=
  [CAddNode (NI 0) (Some [NI 0; NI 1]) (VNet deep2) false;
   CAddNode (NI 1) (Some [NI 1]) (zvec [1;0;2]%Z) false;
   CAddNode (NI 2) (Some [NI 2]) (zvec [3;5]%Z) false;
   CFixEdge (NI 2) [1] false;
   COpenEdge (NI 0) None; COpenEdge (NI 0) None].
Definition deep1 := zbuild deep1_calls.
(** the diagonal matrix, the matrix and a vector; expanding node 0 merges the edges 0 and 1 *)
Definition deep0_calls : list (call ZT) :=
  [CAddNode (NI 0) (Some [NI 0; NI 1]) (VNet deep1) false;
   CAddNode (NI 1) (Some [NI 1; NI 2]) (VNet deep2) false;
   CAddNode (NI 2) (Some [NI 2]) (zvec [1;1;4]%Z) false;
   COpenEdge (NI 0) None].
Definition deep0 := zbuild deep0_calls.
Lemma deep2_regular : regular deep2.
Proof. apply zbuild_regular; [vm_compute; intuition congruence|vm_compute; reflexivity|vm_compute; reflexivity]. Qed.
Lemma deep1_regular : regular deep1.
Proof. apply zbuild_regular; [vm_compute; intuition congruence|vm_compute; reflexivity|vm_compute; reflexivity]. Qed.
Lemma deep0_regular : regular deep0.
Proof. apply zbuild_regular; [vm_compute; intuition congruence|vm_compute; reflexivity|vm_compute; reflexivity]. Qed.
Ltac int_names := let x := fresh in let I := fresh in
  intros x I; vm_compute in I; repeat (destruct I as [<-|I]; [eexists; reflexivity|]); destruct I.
Lemma deep2_int : int_named 0 deep2.
Proof.
  split; [int_names|]. intros x nd G. apply get_In in G.
  assert (E : nodes deep2 = [(NI 0, Node [NI 0; NI 1] true (Some (zmat 2 3 [1;2;3;4;5;6]%Z)))]) by reflexivity.
  rewrite E in G. destruct G as [G|[]]. injection G as <- <-. exact I.
Qed.
Lemma deep1_int : int_named 1 deep1.
Proof.
  split; [int_names|]. intros x nd G. apply get_In in G.
  assert (E : nodes deep1 = [(NI 0, Node [NI 0; NI 1] true (Some (VNet deep2))); (NI 1, Node [NI 1] true (Some (zvec [1;0;2]%Z)));
                             (NI 2, Node [NI 2] true (Some (zvec [3;5]%Z)))]) by reflexivity.
  rewrite E in G. destruct G as [G|[G|[G|[]]]]; injection G as <- <-; cbn [n_val]; try exact I.
  split; [apply deep2_regular|apply deep2_int].
Qed.
Lemma deep0_int : int_named 2 deep0.
Proof.
  split; [int_names|]. intros x nd G. apply get_In in G.
  assert (E : nodes deep0 = [(NI 0, Node [NI 0; NI 1] true (Some (VNet deep1))); (NI 1, Node [NI 1; NI 2] true (Some (VNet deep2)));
                             (NI 2, Node [NI 2] true (Some (zvec [1;1;4]%Z)))]) by reflexivity.
  rewrite E in G. destruct G as [G|[G|[G|[]]]]; injection G as <- <-; cbn [n_val]; try exact I.
  - split; [apply deep1_regular|apply deep1_int].
  - split; [apply deep2_regular|]. destruct deep2_int as [A B]. split; [exact A|]. intros x nd G. specialize (B x nd G).
    destruct (n_val nd) as [[d|m|ts|c v]|]; auto. destruct B.
Qed.
Example C06_somewhere : regular deep0 /\ int_named 2 deep0 /\ expandable 2 deep0 (keys (nodes deep0)) /\
  expandable 2 deep0 [NI 0] /\ value deep0 [1] <> 0%Z.
Proof.
  pose proof (int_named_expandable _ deep0_regular deep0_int) as X.
  split; [apply deep0_regular|]. split; [apply deep0_int|]. split; [exact X|]. split; [|vm_compute; discriminate].
  destruct X as (A & (bent & B1 & B2) & C).
  assert (J : forall x, In x [NI 0] -> In x (keys (nodes deep0))) by (intros x [<-|[]]; vm_compute; auto).
  split; [intros x m Ix; apply A; auto|]. split; [exists bent; split; auto|]. intros x nd Ix. apply C; auto.
Qed.
Example C06_runs :
  let '(n', r) := expand (fun l => rev l) 3 None deep0 in
  (r, keys (nodes n'), keys (edges n'), opens n', value n' [0], value n' [1], value deep0 [0], value deep0 [1])
  = (Ok tt, [NI 2; NT [NI 0; NI 1]; NT [NI 0; NI 2]; NT [NI 0; NI 0; NI 0]; NT [NI 1; NI 0]], [NI 1; NI 2; NT [NI 0; NI 1]; NT [NI 0; NI 2]], [NI 1],
     525%Z, 2640%Z, 525%Z, 2640%Z).
Proof. vm_compute. reflexivity. Qed.

(** ** the conditions on names are needed *)
(** Node a holds a network with a node b; another node is called ("a", "b").  Expanding a gives its inner
    node the name ("a", "b") and overwrites the other node. *)
Definition inner_calls : list (call ZT) := [CAddNode b_ (Some [i_]) (zvec [1;2]%Z) false; COpenEdge i_ None].
Definition inner := zbuild inner_calls.
Definition clash_calls : list (call ZT) :=
  [CAddNode a_ (Some [i_]) (VNet inner) false; CAddNode (NT [a_; b_]) (Some [i_]) (zvec [5;7]%Z) false].
Definition clash := zbuild clash_calls.
Lemma inner_regular : regular inner.
Proof. apply zbuild_regular; [vm_compute; intuition congruence|vm_compute; reflexivity|vm_compute; reflexivity]. Qed.
Lemma clash_regular : regular clash.
Proof. apply zbuild_regular; [vm_compute; intuition congruence|vm_compute; reflexivity|vm_compute; reflexivity]. Qed.
Lemma inner_straight : straight inner.
Proof.
  constructor; [apply nodupb_NoDup; vm_compute; reflexivity|]. intros x m (nd & G & V). apply get_In in G.
  assert (E : nodes inner = [(b_, Node [i_] true (Some (zvec [1;2]%Z)))]) by reflexivity.
  rewrite E in G. destruct G as [G|[]]. injection G as <- <-. discriminate.
Qed.
Lemma inner_flat : flat inner.
Proof.
  intros x nd G. apply get_In in G.
  assert (E : nodes inner = [(b_, Node [i_] true (Some (zvec [1;2]%Z)))]) by reflexivity.
  rewrite E in G. destruct G as [G|[]]. injection G as <- <-. exact I.
Qed.
Theorem C06_name_clash_refuted :
  ~ forall (n : tn ZT), regular n -> sortable n (keys (nodes n)) ->
      (forall x nd, get x (nodes n) = Some nd -> plain (n_val nd) \/ exists m, n_val nd = Some (VNet m) /\ regular m /\ flat m) ->
      exists n', expand (fun l => l) 2 None n = (n', Ok tt) /\ forall o, value n' o = value n o.
Proof.
  intros H.
  assert (E : nodes clash = [(a_, Node [i_] true (Some (VNet inner))); (NT [a_; b_], Node [i_] true (Some (zvec [5;7]%Z)))]) by reflexivity.
  destruct (H clash clash_regular) as (n' & En & V).
  - exists []. split; [|intros a b (x & _ & _ & [] & _)]. intros x m _ (nd & G & Q). right. apply get_In in G. rewrite E in G.
    destruct G as [G|[G|[]]]; injection G as <- <-; [|discriminate]. injection Q as <-. apply inner_straight.
  - intros x nd G. apply get_In in G. rewrite E in G. destruct G as [G|[G|[]]]; injection G as <- <-; [right|left; exact I].
    exists inner. split; [reflexivity|]. split; [apply inner_regular|apply inner_flat].
  - specialize (V []). assert (Q : value (fst (expand (fun l => l) 2 None clash)) [] <> value clash []) by (vm_compute; discriminate).
    apply Q. rewrite En. exact V.
Qed.
Print Assumptions C06_name_clash_refuted.

(** A network whose open edge is open twice, between an edge named by a string and one named by an
    integer: expand has to merge the two and raises TypeError when it sorts their names, after it has
    removed the node. *)
Definition twice_calls : list (call ZT) := [CAddNode b_ (Some [i_]) (zvec [1;2]%Z) false; COpenEdge i_ None; COpenEdge i_ None].
Definition twice := zbuild twice_calls.
Definition mixed_calls : list (call ZT) :=
  [CAddNode a_ (Some [i_; NI 0]) (VNet twice) false; CAddNode c_ (Some [NI 0]) (zvec [1;1]%Z) false; COpenEdge i_ None].
Definition mixed := zbuild mixed_calls.
Lemma mixed_regular : regular mixed.
Proof. apply zbuild_regular; [vm_compute; intuition congruence|vm_compute; reflexivity|vm_compute; reflexivity]. Qed.
Theorem C06_mixed_names_refuted :
  ~ forall (n : tn ZT), regular n -> separate n (keys (nodes n)) -> exists n', expand (fun l => l) 2 None n = (n', Ok tt).
Proof.
  intros H. destruct (H mixed mixed_regular) as (n' & E).
  - intros x m Ix _. vm_compute in Ix. split.
    + intros y Iy (r & Q). vm_compute in Iy. destruct Ix as [<-|[<-|[]]], Iy as [<-|[<-|[]]]; auto; discriminate.
    + intros e r Ie ->. vm_compute in Ie. intuition discriminate.
  - assert (Q : snd (expand (fun l => l) 2 None mixed) = Err TypeError) by (vm_compute; reflexivity). rewrite E in Q. discriminate.
Qed.
Print Assumptions C06_mixed_names_refuted.

(** A node that holds a view (the conjugate of a tensor, say) makes expand raise. *)
Theorem C06_views_raise :
  forall (S : scalar) (ord : list name -> list name) (n : tn (tval S)) (l : list name) (x : name) nd c v fuel,
    get x (nodes n) = Some nd -> n_val nd = Some (VView c v) ->
    exists e, expand ord (Datatypes.S fuel) (Some (x :: l)) n = (n, Err e) /\ (e = TypeError \/ e = IndexError).
Proof.
  intros S ord n l x nd c v fuel G V. rewrite expand_S. cbn [foreach]. unfold mbind at 1. unfold expand_node, mbind at 1, getst at 1.
  rewrite G, V. unfold raise. exists (view_error n x). split; auto. unfold view_error. destruct x; auto. destruct (_ && _)%bool; auto.
Qed.
Print Assumptions C06_views_raise.
