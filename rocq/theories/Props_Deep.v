(** * C51: contract() of tensors, sums, views and nested networks

    [well v] (DeepSpec.v) says which objects the claim is about: tensors with data, non-empty sums of terms of
    one shape, views of such objects, and networks of such objects.  [array_of v a] says that the array [a] has
    the shape of [v] and its entries, which are those of the mathematical value of [v]: for a network, the sum
    over all values of its edges of the product of the entries of its nodes, at every depth. *)
From Coq Require Import String.
From Verif Require Import Base Scalar NetSpec ModelArray ModelTN TNInv TNOps TNSpec TNDelta ModelHist TNHist TNValue TNExact
  TNEdit ModelContract ContractTemplate ContractMain ContractMerge ModelVal ModelNest NestSpec NestSub NestEnc NestJoin NestExp Examples Props_Nest Props_Expand ModelDeep
  DeepSpec DeepProofs DeepCheck OrderSpec ModelOrder OrderProofs OrderNet DeepFind Props_Order.
Set Implicit Arguments.
Open Scope nat_scope.

(** contract() returns the array of the object, whatever the order in which Python iterates over sets and
    whatever contraction schemes, of acceptable cost, the order finder returns for the networks contracted on the
    way.  [fuel] bounds the depth of the calls in the model; any bound from some [k] on gives the same array. *)
Theorem C51_contract :
  forall (S : scalar) (ord : list name -> list name) (memory : Z) (find : tn (tval S) -> Z * order * list name) (v : tval S),
    (forall l, Permutation (ord l) l) -> well v -> finds_for ord memory find v ->
    exists k a, array_of v a /\ forall fuel, k <= fuel -> contract_val ord memory find fuel v = Ok a.
Proof. intros. apply deep_array; auto. Qed.
Print Assumptions C51_contract.

(** With the default order finder nothing has to be known about the schemes, only that no node is called "#" or
    by a tuple that starts with it. *)
Theorem C51_default_finder :
  forall (S : scalar) (ord : list name -> list name) (memory : Z) (sp : ostep -> opath) (cost : tn (tval S) -> Z) (v : tval S),
    (forall l, Permutation (ord l) l) -> well v -> good_paths sp -> (forall n, (cost n * 48 <= memory * 2 ^ 30)%Z) ->
    (forall n, inside v n -> no_hash n) ->
    exists k a, array_of v a /\ forall fuel, k <= fuel -> contract_val ord memory (finder sp cost) fuel v = Ok a.
Proof. intros. apply deep_array; auto. apply suits_default; auto. Qed.
Print Assumptions C51_default_finder.

(** So two runs, with other options, another order finder and other set orders, agree. *)
Theorem C51_runs_agree :
  forall (S : scalar) (ord1 ord2 : list name -> list name) (mem1 mem2 : Z) (find1 find2 : tn (tval S) -> Z * order * list name) (v : tval S),
    (forall l, Permutation (ord1 l) l) -> (forall l, Permutation (ord2 l) l) -> well v ->
    finds_for ord1 mem1 find1 v -> finds_for ord2 mem2 find2 v ->
    exists k a b, (forall fuel, k <= fuel -> contract_val ord1 mem1 find1 fuel v = Ok a /\ contract_val ord2 mem2 find2 fuel v = Ok b) /\
      nd_shape a = nd_shape b /\ forall idx, in_shape (nd_shape a) idx = true -> nd_at a idx = nd_at b idx.
Proof.
  intros S ord1 ord2 mem1 mem2 find1 find2 v O1 O2 W F1 F2.
  destruct (deep_array O1 W F1) as (k1 & a & [Sa Va] & H1). destruct (deep_array O2 W F2) as (k2 & b & [Sb Vb] & H2).
  exists (max k1 k2), a, b. split; [intros f L; split; [apply H1; lia|apply H2; lia]|]. assert (Q : nd_shape a = nd_shape b).
  { apply map_Some_inj. rewrite Sa in Sb. congruence. }
  split; auto. intros idx Hi. rewrite Va, Vb; auto. rewrite <- Q. auto.
Qed.
Print Assumptions C51_runs_agree.

(** ** an object on which the hypotheses hold *)
(** Node 0 holds a network of two nodes, one of which holds a sum of a vector and a network; its inner edge 1 is
    closed.  The outer network has a closed edge 1 fixed to one value, at the nested network, and an edge 2 that is
    open.  The object is a view of it. *)
Definition d_in : tn ZT := zbuild
  [CAddNode (NI 0) (Some [NI 0]) (zvec [5;7]%Z) false; COpenEdge (NI 0) None].
Definition d_mid : tn ZT := zbuild
  [CAddNode (NI 0) (Some [NI 0; NI 1]) (zmat 3 2 [1;2;3;4;5;6]%Z) false;
   CAddNode (NI 1) (Some [NI 1]) (VSum [(NI 0, zvec [1;1]%Z); (NI 1, VNet d_in)]) false;
   CAddNode (NI 2) (Some [NI 2]) (VNet d_in) false;
   COpenEdge (NI 0) None; COpenEdge (NI 2) None].
Definition d_top : tn ZT := zbuild
  [CAddNode (NI 0) (Some [NI 1; NI 2]) (VNet d_mid) false;
   CAddNode (NI 1) (Some [NI 1]) (zvec [1;2;3]%Z) false;
   COpenEdge (NI 2) None; CFixEdge (NI 1) [1] false].
Definition d_val : ZT := VView (fun z : ZK => (z + 1)%Z) (VNet d_top).
Definition unit_cost : tn ZT -> Z := fun _ => 1%Z.
Lemma d_wellb : wellb 5 d_val = true.
Proof. vm_compute. reflexivity. Qed.
Example C51_somewhere :
  well d_val /\ good_paths std_sp /\ (forall n, (unit_cost n * 48 <= 1024 * 2 ^ 30)%Z) /\ (forall n, inside d_val n -> no_hash n) /\
  finds_for (fun l => rev l) 1024 (finder std_sp unit_cost) d_val /\
  match contract_val (fun l => rev l) 1024 (finder std_sp unit_cost) 6 d_val with
  | Ok a => nd_shape a = [2] /\ map (fun i => nd_at a [i]) [0; 1] = [501; 701]%Z /\ map (fun i => tval_value d_val [i]) [0; 1] = [501; 701]%Z
  | Err _ => False
  end.
Proof.
  assert (W : well d_val) by exact (wellb_ok _ _ d_wellb).
  assert (H : forall n, inside d_val n -> no_hash n) by (intros n Hn; exact (wellb_no_hash Hn _ d_wellb)).
  assert (M : forall n, (unit_cost n * 48 <= 1024 * 2 ^ 30)%Z) by (intros n; vm_compute; discriminate).
  split; auto. split; [exact std_good|]. split; auto. split; auto. split.
  - apply suits_default; auto; [intros l; apply Permutation_sym, Permutation_rev|exact std_good].
  - vm_compute. auto.
Qed.

(** Values that contradict each other: edge 0 of the outer network is fixed to 0 and the edge of the nested network
    joined to it to 1.  The condition [few] (NestSpec.v) allows this, and contract() returns the value of the network, 0. *)
Definition o_in : tn ZT := zbuild
  [CAddNode (NI 0) (Some [NI 0]) (zvec [5;7]%Z) false; COpenEdge (NI 0) None; CFixEdge (NI 0) [1] false].
Definition o_top : tn ZT := zbuild
  [CAddNode (NI 0) (Some [NI 0]) (VNet o_in) false; CAddNode (NI 1) (Some [NI 0]) (zvec [1;2]%Z) false; CFixEdge (NI 0) [0] false].
Example C51_contradiction_somewhere :
  well (VNet o_top) /\ (forall n, inside (VNet o_top) n -> no_hash n) /\
  get (NI 0) (edges o_top) <> None /\ tval_value (VNet o_top) [] = 0%Z /\
  match contract_val (fun l => rev l) 1024 (finder std_sp unit_cost) 6 (VNet o_top) with
  | Ok a => nd_shape a = [] /\ nd_at a [] = 0%Z
  | Err _ => False
  end.
Proof.
  assert (Ri : regular o_in) by (apply regularb_ok; vm_compute; reflexivity).
  assert (Ro : regular o_top) by (apply regularb_ok; vm_compute; reflexivity).
  assert (Zo : forall x, In x (keys (nodes o_top) ++ keys (edges o_top)) -> exists z, x = NI z) by (apply ints_ok; vm_compute; reflexivity).
  assert (Lf : forall v, leaf o_top v -> exists d, v = VTensor (Some d)).
  { apply (@leavesb_ok ZK (fun v => match v with VTensor (Some _) => true | _ => false end)) with (k := 3); [|vm_compute; reflexivity].
    intros [[d|]|n|l|f v] Q; try discriminate Q. eauto. }
  split; [|split; [|split; [vm_compute; discriminate|vm_compute; auto]]].
  - apply well_net with (k := 1); auto.
    + apply int_named_expandable; auto. split; auto. intros x nd G. apply get_In in G. destruct G as [G|[G|[]]]; injection G as <- <-; cbn [n_val]; auto.
      split; auto. split; [apply ints_ok; vm_compute; reflexivity|]. intros x nd G. apply get_In in G. destruct G as [G|[]]. injection G as <- <-. exact I.
      exact I.
    + split; [|split].
      * right. constructor; [intros e ed fx [G|[]] F; injection G as <- <-; injection F as <-; simpl; lia|].
        intros x nd m [G|[G|[]]] V; injection G as <- <-; [|discriminate]. injection V as <-.
        constructor; [intros e ed fx [G|[]] F; injection G as <- <-; injection F as <-; simpl; lia|]. intros x nd m [G|[]] V. injection G as <- <-. discriminate.
      * intros P (D & _) e Pe. destruct (D e Pe) as [[<-|[]] Q]. discriminate.
      * intros x m _ (nd & G & V). apply get_In in G. destruct G as [G|[G|[]]]; injection G as <- <-; [|discriminate]. injection V as <-.
        constructor; [intros P [D _ _] e Pe; destruct (D e Pe) as [[<-|[]] Q]; discriminate|].
        intros x m (nd & G & V). apply get_In in G. destruct G as [G|[]]. injection G as <- <-. discriminate.
    + apply (@clearb_ok ZK 3); auto.
    + intros v L. destruct (Lf v L) as (d & ->). constructor.
  - intros n H. inversion H as [|? v ? L J| |]; subst.
    + intros x Ix. destruct (Zo x) as (z & ->); [apply in_app_iff; auto|]. exists (NI z), []. split; auto. discriminate.
    + destruct (Lf v L) as (d & ->). inversion J.
Qed.

(** ** the conditions are needed *)
Definition no_order : tn ZT -> Z * order * list name := fun _ => (1%Z, [], []).
Definition run_deep v := contract_val (fun l => l) 1024 no_order 5 v.

(** Integer names do not protect against clashes.  Node 0 holds a network whose nodes share the closed edge 1;
    edge 0 of the outer network is open twice.  Expanding calls the inner edge (0, 1), and that is also the name
    complete_delta invents for the second copy of edge 0.  The two are taken for one edge, and contract() returns
    the wrong array without any error. *)
Definition pair_in : tn ZT := zbuild
  [CAddNode (NI 0) (Some [NI 0; NI 1]) (zmat 2 2 [1;2;3;4]%Z) false; CAddNode (NI 1) (Some [NI 1]) (zvec [1;1]%Z) false;
   COpenEdge (NI 0) None].
Definition pair_out : tn ZT := zbuild
  [CAddNode (NI 0) (Some [NI 0]) (VNet pair_in) false; COpenEdge (NI 0) None; COpenEdge (NI 0) None].
Theorem C51_name_clash_refuted :
  ~ forall (n : tn ZT) k, regular n -> expandable k n (keys (nodes n)) -> tidy n (keys (nodes n)) ->
      (forall x, In x (keys (nodes n) ++ keys (edges n)) -> exists z, x = NI z) ->
      (forall v, leaf n v -> exists d, v = VTensor (Some d)) ->
      forall a, run_deep (VNet n) = Ok a -> array_of (VNet n) a.
Proof.
  intros H. destruct (@baseb_ok ZK 3 pair_out) as (R & X & T & Z); [vm_compute; reflexivity|].
  destruct (run_deep (VNet pair_out)) as [a|e] eqn:E; [|vm_compute in E; discriminate].
  destruct (H pair_out 4 R X T Z) with (a := a) as [Sh Va]; auto.
  - apply (@leavesb_ok ZK (fun v => match v with VTensor (Some _) => true | _ => false end)) with (k := 3); [|vm_compute; reflexivity].
    intros [[d|]|n|l|f v] Q; try discriminate Q. eauto.
  - assert (Q : match run_deep (VNet pair_out) with Ok a => (in_shape (nd_shape a) [0; 0], nd_at a [0; 0]) | Err _ => (false, 0%Z) end
              = (true, 1%Z)) by (vm_compute; reflexivity).
    rewrite E in Q. injection Q as Q1 Q2. apply Va in Q1. rewrite Q2 in Q1. vm_compute in Q1. discriminate.
Qed.
Print Assumptions C51_name_clash_refuted.

(** A nested network with an open edge that no node has is the all-ones vector.  Summing over it should give its
    dimension, but the outer edge is attached to nothing after expanding and contract() drops it. *)
Definition ones_in : tn ZT := zbuild [CAddEdge (NI 0) (Some 2); COpenEdge (NI 0) None].
Definition ones_out : tn ZT := zbuild [CAddNode (NI 0) (Some [NI 0]) (VNet ones_in) false].
Theorem C51_unattached_open_edge_refuted :
  ~ forall (n : tn ZT) k, regular n -> expandable k n (keys (nodes n)) -> lively n -> one_value n ->
      loose n (keys (nodes n)) -> (forall x m, held n x m -> lively m /\ one_value m /\ (forall e, In e (opens m) -> is_fixed m e = false) /\ flat m) ->
      unclashed n -> (forall v, leaf n v -> exists d, v = VTensor (Some d)) ->
      forall a, run_deep (VNet n) = Ok a -> array_of (VNet n) a.
Proof.
  intros H.
  assert (R : regular ones_out) by (apply regularb_ok; vm_compute; reflexivity).
  assert (Ri : regular ones_in) by (apply regularb_ok; vm_compute; reflexivity).
  assert (Z : forall x, In x (keys (nodes ones_out) ++ keys (edges ones_out)) -> exists z, x = NI z) by (apply ints_ok; vm_compute; reflexivity).
  assert (Hd : forall x m, held ones_out x m -> m = ones_in).
  { intros x m (nd & G & V). apply get_In in G.
    assert (E : nodes ones_out = [(NI 0, Node [NI 0] true (Some (VNet ones_in)))]) by reflexivity. rewrite E in G.
    destruct G as [G|[]]. injection G as <- <-. injection V as <-. reflexivity. }
  assert (Fi : flat ones_in) by (intros x nd G; discriminate).
  destruct (run_deep (VNet ones_out)) as [a|e] eqn:E; [|vm_compute in E; discriminate].
  destruct (H ones_out 1 R) with (a := a) as [Sh Va]; auto.
  - apply int_named_expandable; auto. split; [apply Z|]. intros x nd G. destruct (n_val nd) as [[d|m|l|f v]|] eqn:V; auto.
    + assert (m = ones_in) as -> by (apply (Hd x); exists nd; auto). split; auto. split; [apply ints_ok; vm_compute; reflexivity|intros y ndy Gy; discriminate].
    + apply get_In in G. assert (En : nodes ones_out = [(NI 0, Node [NI 0] true (Some (VNet ones_in)))]) by reflexivity. rewrite En in G.
      destruct G as [G|[]]. injection G as <- <-. discriminate.
  - apply livelyb_ok; [apply R|vm_compute; reflexivity].
  - apply one_valueb_ok. vm_compute. reflexivity.
  - apply (@legsb_ok ZK 0). vm_compute. reflexivity.
  - intros x m Hx. rewrite (Hd _ _ Hx). split; [apply livelyb_ok; [apply Ri|vm_compute; reflexivity]|].
    split; [apply one_valueb_ok; vm_compute; reflexivity|]. split; auto. intros e Ie. vm_compute in Ie. destruct Ie as [<-|[]]. reflexivity.
  - apply (@clearb_ok ZK 0); auto.
  - apply (@leavesb_ok ZK (fun v => match v with VTensor (Some _) => true | _ => false end)) with (k := 1); [|vm_compute; reflexivity].
    intros [[d|]|n|l|f v] Q; try discriminate Q. eauto.
  - assert (Q : match run_deep (VNet ones_out) with Ok a => (in_shape (nd_shape a) [], nd_at a []) | Err _ => (false, 0%Z) end
              = (true, 1%Z)) by (vm_compute; reflexivity).
    rewrite E in Q. injection Q as Q1 Q2. apply Va in Q1. rewrite Q2 in Q1. vm_compute in Q1. discriminate.
Qed.
Print Assumptions C51_unattached_open_edge_refuted.

(** A network whose only node holds a view cannot be contracted: expand raises. *)
Theorem C51_view_in_node_raises :
  forall (S : scalar) (ord : list name -> list name) (memory : Z) (find : tn (tval S) -> Z * order * list name) (n : tn (tval S)) x nd f v fuel,
    get x (nodes n) = Some nd -> n_val nd = Some (VView f v) -> keys (nodes n) = [x] ->
    exists e, contract_val ord memory find (Datatypes.S (Datatypes.S fuel)) (VNet n) = Err e /\ (e = TypeError \/ e = IndexError).
Proof.
  intros S ord memory find n x nd f v fuel G V K. cbn [contract_val]. unfold expand_and_delta, run_net, mbind at 1.
  destruct (C06_views_raise ord (copy_tn n) [] x fuel G V) as (e & E & He). rewrite expand_S in *. change (keys (nodes (copy_tn n))) with (keys (nodes n)).
  rewrite K, E. cbn [bind]. eauto.
Qed.
Print Assumptions C51_view_in_node_raises.
