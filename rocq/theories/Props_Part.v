(** * C52: contracting a network part by part

    partial_contract() contracts the chosen nodes and puts the array in one new node.  [ready n] (PartSpec.v) says which
    networks the claim is about: those of C51 of which the nested networks have no edge open twice.
    [replaced n xs es x m a n'] says that in [n'] the part [m] is replaced by one node [x] with the array [a], and that the
    value is that of [n]. *)
From Coq Require Import String.
From Verif Require Import Base Scalar NetSpec ModelArray ModelTN TNInv TNOps TNSpec TNDelta TNDeltaValue ModelHist TNHist TNValue TNExact
  TNEdit ModelContract ContractTemplate ContractMain ContractMerge ModelVal ModelNest NestSpec NestSub NestEnc NestJoin NestExp Examples Props_Nest Props_Expand ModelDeep
  DeepSpec DeepProofs DeepCheck OrderSpec ModelOrder OrderProofs OrderNet DeepFind Props_Order Props_Deep ModelPart PartSpec PartProofs.
Set Implicit Arguments.
Open Scope nat_scope.

(** One call, with any order finder: the network has the value it had, the new node has the array of the part, the other nodes
    and edges are untouched, and the network is again one of which parts can be contracted. *)
Theorem C52_partial_contract :
  forall (S : scalar) (ord : list name -> list name) (memory : Z) (find : tn (tval S) -> Z * order * list name)
    (n : tn (tval S)) (xs es os : option (list name)) (x : name),
    (forall l, Permutation (ord l) l) -> ready n -> request n xs es os -> (forall l, os = Some l -> NoDup l) ->
    (In x (keys (nodes n)) -> chosen n xs es x) -> good_name n x ->
    (forall ys fs m, subtn ord n xs es os = Ok (ys, fs, m) -> finds_for ord memory find (VNet m)) ->
    exists m a n' k, (exists ys fs, subtn ord n xs es os = Ok (ys, fs, m)) /\ array_of (VNet m) a /\
      replaced n xs es x m a n' /\ ready n' /\
      forall fuel, k <= fuel -> partial_contract ord memory find fuel xs es os x n = (n', Ok tt).
Proof.
  intros S ord memory find n xs es os x Ho Rn Rq No Nx Nm Ff.
  destruct (@partial_contract_ok S ord Ho memory find n xs es os x (proj1 Rn) Rq Nx) as (ys & fs & m & a & n' & k & E & A & Rp & Ek).
  { intros ys fs m E. split; [exact (ready_well (part_well ord Ho Rn Rq No E))|eauto]. }
  exists m, a, n', k. split; [eauto|]. split; auto. split; auto. split; auto. exact (ready_after ord Ho Rn Rq Nx Nm E Rp).
Qed.
Print Assumptions C52_partial_contract.

(** Any number of calls one after the other, and then contract(), with the default order finder: contract() returns the array of
    the network as it was before the calls. *)
Theorem C52_part_by_part :
  forall (S : scalar) (ord : list name -> list name) (memory : Z) (sp : ostep -> opath) (cost : tn (tval S) -> Z)
    (n : tn (tval S)) (l : list request_t),
    (forall l, Permutation (ord l) l) -> good_paths sp -> (forall n, (cost n * 48 <= memory * 2 ^ 30)%Z) ->
    ready n -> all_no_hash n -> parts_ok n l ->
    exists n' k a, array_of (VNet n) a /\ forall fuel, k <= fuel ->
      contract_parts ord memory (finder sp cost) fuel l n = (n', Ok tt) /\
      contract_val ord memory (finder sp cost) fuel (VNet n') = Ok a.
Proof. intros. apply contract_after; auto. Qed.
Print Assumptions C52_part_by_part.

(** For disjoint groups of nodes, with conditions on the network before the calls only. *)
Theorem C52_groups :
  forall (S : scalar) (ord : list name -> list name) (memory : Z) (sp : ostep -> opath) (cost : tn (tval S) -> Z)
    (n : tn (tval S)) (gs : list (list name * name)),
    (forall l, Permutation (ord l) l) -> good_paths sp -> (forall n, (cost n * 48 <= memory * 2 ^ 30)%Z) ->
    ready n -> all_no_hash n ->
    NoDup (concat (map fst gs)) -> incl (concat (map fst gs)) (keys (nodes n)) ->
    NoDup (map snd gs) -> (forall x, In x (map snd gs) -> ~ In x (keys (nodes n)) /\ good_name n x) ->
    (forall g e, In g gs -> boundary n (Some (fst g)) None e -> is_fixed n e = false) ->
    exists n' k a, array_of (VNet n) a /\ forall fuel, k <= fuel ->
      contract_parts ord memory (finder sp cost) fuel (map (fun g => (Some (fst g), None, None, snd g)) gs) n = (n', Ok tt) /\
      contract_val ord memory (finder sp cost) fuel (VNet n') = Ok a.
Proof. intros. apply contract_after; auto. apply groups_parts_ok; auto. apply H2. Qed.
Print Assumptions C52_groups.

(** ** a network on which the hypotheses hold *)
(** five nodes in a row; node 1 holds a network and node 2 a sum; edge 0 is open twice, edge 5 is fixed *)
Definition q_in : tn ZT := zbuild
  [CAddNode (NI 0) (Some [NI 0; NI 1]) (zmat 2 2 [5;7;1;2]%Z) false; CAddNode (NI 1) (Some [NI 1; NI 2]) (zmat 2 2 [1;3;0;2]%Z) false;
   COpenEdge (NI 0) None; COpenEdge (NI 2) None].
Definition q_net : tn ZT := zbuild
  [CAddNode (NI 0) (Some [NI 0; NI 1]) (zmat 3 2 [1;2;3;4;5;6]%Z) false;
   CAddNode (NI 1) (Some [NI 1; NI 2]) (VNet q_in) false;
   CAddNode (NI 2) (Some [NI 2; NI 3]) (VSum [(NI 0, zmat 2 2 [1;0;2;1]%Z); (NI 1, VNet q_in)]) false;
   CAddNode (NI 3) (Some [NI 3; NI 4]) (zmat 2 2 [2;1;1;3]%Z) false;
   CAddNode (NI 4) (Some [NI 4; NI 5]) (zmat 2 2 [1;4;2;5]%Z) false;
   COpenEdge (NI 0) None; COpenEdge (NI 0) None; CFixEdge (NI 5) [1] false].
Definition q_groups : list (list name * name) := [([NI 0; NI 1], NI 10); ([NI 2; NI 3], NI 11)].
Lemma q_wellb : wellb 5 (VNet q_net) = true.
Proof. vm_compute. reflexivity. Qed.
Lemma q_ready : ready q_net.
Proof.
  assert (T : topb 4 q_net = true) by (vm_compute; reflexivity). apply topb_ok in T as (R & X & Td & U).
  split; auto. split; [eauto|]. split; auto. split; auto. split.
  - intros x q Hx. apply (@straightb_ok ZK 3). revert x q Hx. apply holdb_ok. vm_compute. reflexivity.
  - apply (@leavesb_ok ZK (wellb 4)) with (k := 4); [apply wellb_ok|vm_compute; reflexivity].
Qed.
Example C52_somewhere :
  ready q_net /\ all_no_hash q_net /\ NoDup (concat (map fst q_groups)) /\ incl (concat (map fst q_groups)) (keys (nodes q_net)) /\
  NoDup (map snd q_groups) /\ (forall x, In x (map snd q_groups) -> ~ In x (keys (nodes q_net)) /\ good_name q_net x) /\
  (forall g e, In g q_groups -> boundary q_net (Some (fst g)) None e -> is_fixed q_net e = false) /\
  match contract_parts (fun l => rev l) 1024 (finder std_sp unit_cost) 6 (map (fun g => (Some (fst g), None, None, snd g)) q_groups) q_net with
  | (n', Ok tt) => keys (nodes n') = [NI 4; NI 10; NI 11] /\
      match contract_val (fun l => rev l) 1024 (finder std_sp unit_cost) 6 (VNet n') with
      | Ok a => nd_shape a = [3; 3] /\ map (fun i => nd_at a [i; i]) [0; 1; 2] = map (fun i => tval_value (VNet q_net) [i; i]) [0; 1; 2] /\
                nd_at a [1; 1] <> 0%Z
      | Err _ => False
      end
  | _ => False
  end.
Proof.
  assert (At : forall e y, attached q_net y e <-> In (y, e) (adj q_net)).
  { intros e y. apply (@attached_dec q_net). apply (proj1 (rg_inv (proj1 q_ready))). }
  split; [exact q_ready|]. split; [intros q I; exact (wellb_no_hash I _ q_wellb)|].
  split; [apply nodupb_NoDup; vm_compute; reflexivity|]. split; [vm_compute; intuition|].
  split; [apply nodupb_NoDup; vm_compute; reflexivity|]. split; [|split].
  - intros x Ix. split.
    + vm_compute in Ix. destruct Ix as [<-|[<-|[]]]; vm_compute; intuition discriminate.
    + destruct Ix as [<-|[<-|[]]]; (split; [eexists; exists []; split; [reflexivity|split; discriminate]|]);
        intros y q (nd & G & V) (r & Q); apply get_In in G; vm_compute in G;
        repeat (destruct G as [G|G]; [injection G as <- <-; discriminate Q || discriminate V|]); destruct G.
  - intros g e Ig [(y & Iy & Ay) _]. apply At in Ay. vm_compute in Ay.
    repeat (destruct Ay as [Ay|Ay]; [injection Ay as <- <-; try (vm_compute; reflexivity); destruct Ig as [<-|[<-|[]]]; vm_compute in Iy; intuition discriminate|]).
    destruct Ay.
  - vm_compute. split; auto. split; auto. split; auto. discriminate.
Qed.
