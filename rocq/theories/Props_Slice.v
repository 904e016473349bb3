(** * C53: the slicer returns a usable sliced scheme

    A run of the slicer is given a network and candidate orders of its nodes.  What it decides by heuristics is left open: the order
    in which sets are listed, when a slice is good enough, when to give up early, what local optimisation tries, the paths opt_einsum
    finds and the cost put on an order.  The claims are for all of these. *)
From Coq Require Import String.
From Verif Require Import Base Scalar NetSpec PathSpec UctSpec ModelArray ModelTN TNInv TNOps TNSpec TNDelta TNDeltaValue ModelHist TNHist TNExact TNValue TNEdit
  ModelContract ContractNet ContractTemplate ContractMain ContractMerge ContractFlat ContractData ContractUser Examples ExamplesC Props_Contract
  ModelOrder ModelOpt ModelUct ModelScheme ModelSlice SliceProofs OrderProofs OrderProofs2 OrderNet Props_Order OrderSpec.
Import ListNotations.
Set Implicit Arguments.
Open Scope nat_scope.

Record setting (T : Type) := Setting {
  x_sets : list nat -> list nat;
  x_accept : Z -> Z -> bool;
  x_early : Z -> nat -> bool;
  x_rounds : nat -> list ((name -> Z) * nat * (ostep -> opath));
  x_paths : nat -> ostep -> opath;
  x_price : nat -> tn T -> gorder -> ccost;
  x_size : nat;
  x_max_tw : nat;
  x_max_num_slice : Z
}.
Definition run_slicer {T} (x : setting T) (n : tn T) (orders : list cscheme) : res (option cscheme) :=
  slice_ (x_sets x) (x_accept x) (x_early x) (x_rounds x) (x_paths x) (x_price x) (x_size x) (x_max_tw x) (x_max_num_slice x) n orders.
(** a listing of a set lists the set, and the paths found are paths *)
Definition lawful {T} (x : setting T) : Prop :=
  (forall l a, In a (x_sets x l) <-> In a l) /\ (forall c, Forall (fun r => good_paths (snd r)) (x_rounds x c)) /\ (forall c, good_paths (x_paths x c)).
(** the candidates: complete pairwise orders of the nodes *)
Definition candidates {T} (n : tn T) (orders : list cscheme) : Prop :=
  orders <> [] /\ forall y, In y orders -> complete_order (keys (nodes n)) (sc_order y) hash /\ pairwise (sc_order y) /\ Forall readable (operands (sc_order y)).
(** [e] is an edge of a node of [n], and is not fixed *)
Definition sliceable {T} (n : tn T) (e : name) : Prop := (exists x nd, In (x, nd) (nodes n) /\ In e (n_legs nd)) /\ fixedb n e = false.
(** [n'] is what is left to contract in each slice: the nodes of [n] without their legs [es] *)
Definition slice_of {T} (n : tn T) (es : list name) (n' : tn T) : Prop :=
  keys (nodes n') = keys (nodes n) /\
  (forall e, sliceable n' e <-> sliceable n e /\ ~ In e es) /\
  (forall e, sliceable n' e -> edim n' e = edim n e).
(** dimensions *)
Definition wide_edges {T} (n : tn T) : Prop := forall x nd e, In (x, nd) (nodes n) -> In e (n_legs nd) -> exists d, edim n e = Some d /\ 2 <= d.

Lemma leg_In {T} (n : tn T) e : wf n -> (leg n e <-> exists x nd, In (x, nd) (nodes n) /\ In e (n_legs nd)).
Proof.
  intros W. split; intros (x & nd & G & I); exists x, nd; split; auto; [apply get_In; auto|apply In_get; auto; apply (wf_nodes W)].
Qed.
Lemma left_over_slice {T} (n n' : tn T) es : wf n -> left_over n es n' -> slice_of n es n'.
Proof.
  intros W (W' & K & L & J). split; auto. unfold sliceable. setoid_rewrite <- (leg_In _ W). setoid_rewrite <- (leg_In _ W').
  split; intros e; [split|].
  - intros [Le Fe]. destruct (L e Le) as (L0 & N0 & _ & F0). split; auto. split; auto. destruct (fixedb n e); auto. rewrite F0 in Fe; auto.
  - intros [[Le Fe] Ne]. apply J; auto.
  - intros [Le _]. apply (L e Le).
Qed.

Lemma wide_sized {T} (n : tn T) : wf n -> wide_edges n -> sized n.
Proof. intros W D e L. apply (leg_In _ W) in L as (x & nd & I & Ie). destruct (D x nd e I Ie) as (d & E & L). destruct d as [|d]; [lia|eauto]. Qed.
Lemma candidates_good {T} (n : tn T) orders : candidates n orders -> Forall (fun y => good_order (keys (nodes n)) (sc_order y)) orders.
Proof. intros [_ H]. apply Forall_forall. intros y Hy. apply (H y Hy). Qed.

(** ** the run ends in one of three ways *)
Theorem C53_slicer :
  forall (T : Type) (x : setting T) (n : tn T) (orders : list cscheme),
    wf n -> wide_edges n -> lawful x -> candidates n orders ->
    let limit := (2 ^ Z.of_nat (x_max_tw x))%Z in
    (* a scheme *)
    (exists s, run_slicer x n orders = Ok (Some s) /\
       (* the order contracts every node *)
       complete_order (keys (nodes n)) (sc_order s) hash /\
       (* the sliced edges can be sliced, and are at most 9 more than asked for *)
       (forall e, In e (sc_slices s) -> sliceable n e) /\
       (sc_slices s = [] \/ (Z.of_nat (length (sc_slices s)) <= x_max_num_slice x + 9)%Z) /\
       (* the cost keeps the limit and tells the length of the list *)
       (k_t (sc_cost s) <= limit)%Z /\ (sc_slices s <> [] -> k_k (sc_cost s) = length (sc_slices s)) /\
       (* the cost is the price of the order on the network without the sliced edges, or of a candidate if none is sliced;
          the order is pairwise; unless the last optimisation broke the limit *)
       exists n' c, slice_of n (sc_slices s) n' /\
         ((pairwise (sc_order s) /\
           (k_s (sc_cost s) = k_s (x_price x c n' (sc_order s)) /\ k_t (sc_cost s) = k_t (x_price x c n' (sc_order s)) \/
            sc_slices s = [] /\ exists y, In y orders /\ sc_order s = sc_order y /\ k_s (sc_cost s) = k_s (sc_cost y) /\ k_t (sc_cost s) = k_t (sc_cost y))) \/
          x_rounds x c <> [] /\ exists o, complete_order (keys (nodes n)) o hash /\ pairwise o /\ (limit < k_t (x_price x c n' o))%Z)) \/
    (* no scheme: the slices allowed did not suffice, or early termination *)
    (run_slicer x n orders = Ok None /\
     exists es t, (forall e, In e es -> sliceable n e) /\ (limit < t)%Z /\ ((x_max_num_slice x <= Z.of_nat (length es))%Z \/ x_early x t (length es) = true)) \/
    (* an exception *)
    run_slicer x n orders = Err IndexError.
Proof.
  intros T x n orders W D (Hs & Hr & Hp) C limit. pose proof (leg_In (n := n)) as LI.
  destruct (@slice_ok T (x_sets x) (x_accept x) Hs (x_early x) (x_rounds x) (x_paths x) (x_price x) (x_size x) (x_max_tw x) (x_max_num_slice x) Hr Hp n orders W (wide_sized W D) (proj1 C) (candidates_good C))
    as [(s & E & [S1 S2 S3 S4 S5 S6])|[(E & es & t & H1 & H2 & H3)|E]].
  - left. exists s. split; auto. split; auto. split; [intros e He; destruct (S2 e He) as [L F]; split; auto; apply LI; auto|]. split; [destruct S3; [auto|right; lia]|]. split; auto. split; auto.
    destruct S6 as (n' & c & LO & H). exists n', c. split; [apply left_over_slice; auto|]. destruct H as [[(_ & G & _) H]|[H (o & (G1 & G2 & _) & L)]]; [left; auto|right; split; auto; exists o; auto].
  - right. left. split; auto. exists es, t. split; auto. intros e He. destruct (H1 e He) as [L F]. split; auto. apply LI; auto.
  - right. right. auto.
Qed.
Print Assumptions C53_slicer.

(** ** nothing is sliced when every candidate keeps the limit already *)
Theorem C53_no_needless_slicing :
  forall (T : Type) (x : setting T) (n : tn T) (orders : list cscheme) (s : cscheme),
    lawful x -> candidates n orders -> x_rounds x 0 = [] ->
    (forall y, In y orders -> (k_t (sc_cost y) <= 2 ^ Z.of_nat (x_max_tw x))%Z) ->
    run_slicer x n orders = Ok (Some s) -> sc_slices s = [].
Proof.
  intros T x n orders s (Hs & Hr & Hp) C R L E.
  refine (@slice_none T (x_sets x) (x_accept x) (x_early x) (x_rounds x) (x_paths x) (x_price x) (x_size x) (x_max_tw x) (x_max_num_slice x) Hr n orders s (proj1 C) (candidates_good C) E _).
  right. split; auto. apply Forall_forall. auto.
Qed.
Print Assumptions C53_no_needless_slicing.

(** ** contracting with the scheme found gives the value of the network *)
Theorem C53_sliced_value :
  forall (S : scalar) (x : setting (nd S)) (n n' : tn (nd S)) (orders : list cscheme) (s : cscheme) (memory cost : Z),
    contractible Ok n -> no_idle_edge n -> fits_memory memory cost ->
    complete_delta (copy_tn n) = (n', Ok tt) -> wide_edges n' -> lawful x -> candidates n' orders ->
    run_slicer x n' orders = Ok (Some s) -> pairwise (sc_order s) ->
    exists r, contract_net Ok memory cost (pairs_of (sc_order s)) (sc_slices s) n = Ok r /\ array_of_value n r.
Proof.
  intros S x n n' orders s memory cost C I M E D Lw Cd R Pw.
  destruct (@complete_delta_ready S (nd S) _ (@nd_at S) Ok (nd_laws S) (nd_ev_laws S) n C) as (n1 & E1 & Rd & _). rewrite E in E1. inversion E1; subst n1.
  destruct (C53_slicer (rd_wf Rd) D Lw Cd) as [(s' & R' & Co & Sl & _)|[[R' _]|R']]; rewrite R in R'; inversion R'; subst s'.
  assert (Sz : forall e, In e (sc_slices s) -> 2 <= size n' e).
  { intros e He. destruct (Sl e He) as [(z & nd & Iz & Ie) _]. destruct (D z nd e Iz Ie) as (d & Ed & L). unfold size. rewrite Ed. auto. }
  apply contract_value; auto. intros n2 E2. rewrite E in E2. inversion E2; subst n2.
  assert (G : good_slices n' (sc_slices s)).
  { constructor; intros e He; [apply (Sl e He)|apply (attached_In _ (rd_wf Rd)), (leg_In _ (rd_wf Rd)), (Sl e He)|specialize (Sz e He); lia]. }
  split; auto. split; [right; apply (complete_valid_order Co Pw)|].
  destruct (sc_slices s) as [|e es] eqn:Q; [left; auto|]. right. rewrite (dlen_split Rd G).
  assert (U : forall l, (forall a, In a l -> 2 <= size n' a) -> 1 <= edges_count n' l).
  { induction l as [|a l IH]; intros H; [cbn; lia|]. unfold edges_count in *. cbn [fold_right]. specialize (H a (or_introl eq_refl)) as Ha. specialize (IH (fun b Hb => H b (or_intror Hb))). nia. }
  unfold slices_count. assert (I0 : In e (dedup (e :: es))) by (apply dedup_In; left; auto).
  assert (A0 : forall a, In a (dedup (e :: es)) -> 2 <= size n' a) by (intros a Ha; apply Sz, dedup_In, Ha).
  destruct (dedup (e :: es)) as [|a l]; [destruct I0|]. specialize (U l (fun b Hb => A0 b (or_intror Hb))). specialize (A0 a (or_introl eq_refl)). unfold edges_count in *. cbn [fold_right]. nia.
Qed.
Print Assumptions C53_sliced_value.

(** ** a concrete run *)
(** a matrix, a tensor with three legs, a vector and a number; the edge j is open *)
Definition sl_net : tn ZA := ExamplesC.build [CAddEdge i_ (Some 2); CAddEdge j_ (Some 2); CAddEdge k_ (Some 2);
   CAddNode a_ (Some [k_]) (avec [1; 2]%Z) false;
   CAddNode b_ (Some [i_; j_]) (amat 2 2 [1; 2; 3; 4]%Z) false;
   CAddNode c_ (Some [i_; j_; k_]) (ND (S := ZK) [2; 2; 2] (fun l => match l with [x; y; z] => Z.of_nat (4 * x + 2 * y + z) | _ => 0%Z end)) false;
   CAddNode (NS "d") (Some []) (nd_scalar (S := ZK) 3%Z) false;
   COpenEdge j_ None].
Definition sl_order : gorder := [([NS "d"; b_], hname 0); ([hname 0; c_], hname 1); ([hname 1; a_], hash)]%string.
(** slice_thres = 0.02 *)
Definition std_accept (cur c : Z) : bool := (100 * cur <? 51 * c)%Z.
(** every assignment of the legs is visited once *)
Definition edge_price (c : nat) (n : tn ZA) (o : gorder) : ccost :=
  CCost 0 (2 ^ Z.of_nat (List.length (dedup (concat (map (fun q => n_legs (snd q)) (nodes n)))))) 0.
Definition sl_orders := [CScheme sl_order [] (edge_price 0 sl_net sl_order)].
Definition sl_set (tw : nat) (k : Z) : setting ZA :=
  Setting (fun l => l) std_accept (fun _ _ => false) (fun _ => []) (fun _ => std_sp) edge_price 3 tw k.


Lemma sl_lawful tw k : lawful (sl_set tw k).
Proof. split; [intros; reflexivity|]. split; [intros c; apply Forall_nil|intros c; exact std_good]. Qed.
(** checking that an order is complete *)
Fixpoint take (l cur : list name) : option (list name) :=
  match l with [] => Some cur | x :: r => if mem x cur then take r (remove1 x cur) else None end.
Lemma take_perm l : forall cur rest, take l cur = Some rest -> Permutation cur (l ++ rest).
Proof.
  induction l as [|x l IH]; cbn [take]; intros cur rest E; [inversion E; auto|]. destruct (mem x cur) eqn:M; [|discriminate]. apply mem_In in M.
  cbn [app]. etransitivity; [apply (remove1_perm _ _ M)|]. constructor. apply IH. auto.
Qed.
Fixpoint redb (cur : list name) (o : gorder) : bool :=
  match o with
  | [] => eqb cur [hash]
  | s :: r => match take (fst s) cur with Some rest => redb (snd s :: rest) r | None => false end
  end.
Lemma redb_red o : forall cur, redb cur o = true -> red cur o [hash].
Proof.
  induction o as [|[l z] o IH]; cbn [redb red]; intros cur E; [apply (proj1 (eqb_eq _ _)) in E; subst; auto|]. cbn [fst snd] in E.
  destruct (take l cur) as [rest|] eqn:Q; [|discriminate]. exists rest. split; [apply take_perm; auto|auto].
Qed.
Definition readableb (x : name) : bool := match x with NT [NS a; NI _] => true | NT [NS a; _] => negb (eqb a "#"%string) | _ => true end.
Lemma readableb_ok x : readableb x = true -> readable x.
Proof. intros E v ->. destruct v; try discriminate E. eauto. Qed.
Definition candidatesb {T} (n : tn T) (orders : list cscheme) : bool :=
  negb (length orders =? 0) &&
  forallb (fun y => nodupb (keys (nodes n) ++ results (sc_order y)) && negb (length (sc_order y) =? 0) && redb (keys (nodes n)) (sc_order y) &&
                    forallb (fun s => length (fst s) =? 2) (sc_order y) && forallb readableb (operands (sc_order y))) orders.
Lemma candidatesb_ok {T} (n : tn T) orders : candidatesb n orders = true -> candidates n orders.
Proof.
  intros E. apply andb_true_iff in E as [E1 E]. split; [intros ->; discriminate|]. rewrite forallb_forall in E. intros y Hy. specialize (E y Hy). rewrite !andb_true_iff in E. destruct E as [[[[E2 E3] E4] E5] E6].
  split; [|split].
  - apply red_complete; try (apply nodupb_NoDup; assumption); [intros Q; rewrite Q in E3; discriminate E3|apply redb_red; auto].
  - apply Forall_forall. intros s Hs. rewrite forallb_forall in E5. apply Nat.eqb_eq. auto.
  - apply Forall_forall. intros a Ha. rewrite forallb_forall in E6. apply readableb_ok. auto.
Qed.
Definition wideb {T} (n : tn T) : bool :=
  forallb (fun q => forallb (fun e => match edim n e with Some d => 2 <=? d | None => false end) (n_legs (snd q))) (nodes n).
Lemma wideb_ok {T} (n : tn T) : wideb n = true -> wide_edges n.
Proof.
  intros E x nd e I Ie. unfold wideb in E. rewrite forallb_forall in E. specialize (E _ I). cbn [snd] in E. rewrite forallb_forall in E. specialize (E _ Ie).
  destruct (edim n e) as [d|]; [|discriminate]. exists d. split; auto. apply Nat.leb_le. auto.
Qed.
Definition sl_done : tn ZA := fst (complete_delta (copy_tn sl_net)).

(** two edges are sliced, the price falls from 8 to 2, and contraction with the scheme gives the entries *)
Example C53_somewhere :
  contractible Ok sl_net /\ no_idle_edge sl_net /\ fits_memory 1024 1 /\ complete_delta (copy_tn sl_net) = (sl_done, Ok tt) /\
  wf sl_done /\ wide_edges sl_done /\ lawful (sl_set 1 2) /\ candidates sl_done sl_orders /\
  run_slicer (sl_set 1 2) sl_done sl_orders =
    Ok (Some (CScheme [([b_; NS "d"], hname 0); ([c_; hname 0], hname 1); ([a_; hname 1], hash)]%string [k_; i_] (CCost 0 2 2))) /\
  map (fun y => k_t (sc_cost y)) sl_orders = [8%Z] /\
  entries_of (try_contract [(b_, NS "d", hname 0); (c_, hname 0, hname 1); (a_, hname 1, hash)]%string [k_; i_] sl_net) [[0]; [1]] = entries_of (try_contract [(b_, NS "d", hname 0); (c_, hname 0, hname 1); (a_, hname 1, hash)]%string [] sl_net) [[0]; [1]].
Proof.
  assert (C : contractible Ok sl_net) by by_build.
  split; [exact C|]. split; [apply no_idleb_ok; vm_compute; reflexivity|]. split; [exact small_memory|].
  assert (E : complete_delta (copy_tn sl_net) = (sl_done, Ok tt)).
  { destruct (@complete_delta_ready ZK (nd ZK) _ (@nd_at ZK) Ok (nd_laws ZK) (nd_ev_laws ZK) sl_net C) as (n' & E & _). unfold sl_done. rewrite E. reflexivity. }
  split; [exact E|]. split; [apply (proj1 (complete_delta_inv E (ct_inv C)))|].
  split; [apply wideb_ok; vm_compute; reflexivity|]. split; [apply sl_lawful|]. split; [apply candidatesb_ok; vm_compute; reflexivity|].
  split; [vm_compute; reflexivity|]. split; vm_compute; reflexivity.
Qed.

(** ** what does not hold *)
Definition with_max {T} (x : setting T) (k : Z) : setting T :=
  Setting (x_sets x) (x_accept x) (x_early x) (x_rounds x) (x_paths x) (x_price x) (x_size x) (x_max_tw x) k.
Lemma sl_wf : wf sl_net.
Proof. apply (proj1 (ct_inv (ltac:(by_build) : contractible (S := ZK) Ok sl_net))). Qed.
Lemma sl_case tw k : wf sl_net /\ wide_edges sl_net /\ lawful (sl_set tw k) /\ candidates sl_net sl_orders.
Proof. split; [exact sl_wf|]. split; [apply wideb_ok; vm_compute; reflexivity|]. split; [apply sl_lawful|apply candidatesb_ok; vm_compute; reflexivity]. Qed.

(** max_num_slice = -1, the default, is documented to ignore the bound; in fact nothing is sliced then *)
Theorem C53_no_bound_slices_nothing :
  forall (T : Type) (x : setting T) (n : tn T) (orders : list cscheme) (s : cscheme),
    lawful x -> candidates n orders -> (x_max_num_slice x <= 0)%Z -> run_slicer x n orders = Ok (Some s) -> sc_slices s = [].
Proof.
  intros T x n orders s (Hs & Hr & Hp) C R E.
  exact (@slice_none T (x_sets x) (x_accept x) (x_early x) (x_rounds x) (x_paths x) (x_price x) (x_size x) (x_max_tw x) (x_max_num_slice x) Hr n orders s (proj1 C) (candidates_good C) E (or_introl R)).
Qed.
Print Assumptions C53_no_bound_slices_nothing.
Theorem C53_bound_ignored_refuted :
  ~ forall (T : Type) (x : setting T) (n : tn T) (orders : list cscheme) (k : Z) (s : cscheme),
      wf n -> wide_edges n -> lawful x -> candidates n orders -> run_slicer (with_max x k) n orders = Ok (Some s) ->
      exists s', run_slicer (with_max x (-1)) n orders = Ok (Some s').
Proof.
  intros H. destruct (sl_case 1 2) as (W & D & L & C). destruct (run_slicer (sl_set 1 2) sl_net sl_orders) as [[s|]|] eqn:E; try (vm_compute in E; discriminate E).
  destruct (H _ (sl_set 1 2) sl_net sl_orders 2%Z s W D L C E) as (s' & E'). vm_compute in E'. discriminate E'.
Qed.
Print Assumptions C53_bound_ignored_refuted.
(** a round may slice several edges, so that the bound can be exceeded *)
Theorem C53_bound_refuted :
  ~ forall (T : Type) (x : setting T) (n : tn T) (orders : list cscheme) (s : cscheme),
      wf n -> wide_edges n -> lawful x -> candidates n orders -> run_slicer x n orders = Ok (Some s) -> (0 <= x_max_num_slice x)%Z ->
      (Z.of_nat (length (sc_slices s)) <= x_max_num_slice x)%Z.
Proof.
  intros H. destruct (sl_case 1 1) as (W & D & L & C). destruct (run_slicer (sl_set 1 1) sl_net sl_orders) as [[s|]|] eqn:E; try (vm_compute in E; discriminate E).
  specialize (H _ (sl_set 1 1) sl_net sl_orders s W D L C E (Zle_0_pos 1)). vm_compute in E. inversion E; subst s. vm_compute in H. apply H. reflexivity.
Qed.
Print Assumptions C53_bound_refuted.
(** there may be no edge to choose from *)
Theorem C53_exception_refuted :
  ~ forall (T : Type) (x : setting T) (n : tn T) (orders : list cscheme),
      wf n -> wide_edges n -> lawful x -> candidates n orders -> exists r, run_slicer x n orders = Ok r.
Proof.
  intros H. destruct (sl_case 0 5) as (W & D & L & C). destruct (H _ (sl_set 0 5) sl_net sl_orders W D L C) as (r & E). vm_compute in E. discriminate E.
Qed.
Print Assumptions C53_exception_refuted.

(** the same edge may be chosen twice in a round *)
Definition net_of (lhs : list (list nat)) : tn ZA :=
  ExamplesC.build (map (fun e => CAddEdge (NI (Z.of_nat e)) (Some 2)) (seq 0 18) ++
    map (fun q => CAddNode (NT [NI (Z.of_nat (fst q))]) (Some (map (fun e => NI (Z.of_nat e)) (snd q))) (ND (S := ZK) (map (fun _ => 2) (snd q)) (fun _ => 1%Z)) false)
        (combine (seq 0 (length lhs)) lhs)).
Definition tw_net := net_of [[1;4;7;15];[3;16];[6;7;12;15];[2;3;6;9;12;14;17];[1;5;8;10];[3;5;9;11;12];[4;13;17];[2;8];[0;11;13;14];[0;8;10;16;17]].
Definition tw_path := [[4;3];[6;8];[7;4];[3;2];[5;0];[2;3];[1;3];[1;2];[1;0]].
Definition tw_order : gorder :=
  match rename_path (keys (nodes tw_net)) (map hname [0;1;2;3;4;5;6;7]%Z ++ [hash]) tw_path with Ok o => o | Err _ => [] end.
Definition tw_orders := [CScheme tw_order [] (edge_price 0 tw_net tw_order)].

Lemma tw_case tw k : wf tw_net /\ wide_edges tw_net /\ lawful (sl_set tw k) /\ candidates tw_net tw_orders.
Proof.
  split; [refine (proj1 (proj1 (build_inv _ _ _))); [vm_compute; intuition congruence|vm_compute; reflexivity]|]. split; [apply wideb_ok; vm_compute; reflexivity|]. split; [apply sl_lawful|apply candidatesb_ok; vm_compute; reflexivity].
Qed.
Theorem C53_distinct_edges_refuted :
  ~ forall (T : Type) (x : setting T) (n : tn T) (orders : list cscheme) (s : cscheme),
      wf n -> wide_edges n -> lawful x -> candidates n orders -> run_slicer x n orders = Ok (Some s) -> NoDup (sc_slices s).
Proof.
  intros H. destruct (tw_case 15 2) as (W & D & L & C). destruct (run_slicer (sl_set 15 2) tw_net tw_orders) as [[s|]|] eqn:E; try (vm_compute in E; discriminate E).
  specialize (H _ (sl_set 15 2) tw_net tw_orders s W D L C E). apply nodupb_NoDup in H. vm_compute in E. inversion E; subst s. vm_compute in H. discriminate H.
Qed.
Print Assumptions C53_distinct_edges_refuted.

(** when the last optimisation breaks the limit, the scheme before it is returned, of which the order has been flattened in place *)
(** the ranks of the tensors of the order, with the default size 13 of the optimiser *)
Definition tw_rank (x : name) : Z :=
  match get x [(hname 0, 11); (hname 1, 13); (hname 2, 13); (hname 3, 8); (hname 4, 8); (hname 5, 11); (hname 6, 9); (hname 7, 2)]%Z with Some r => r | None => 0%Z end.
Definition up_set : setting ZA :=
  Setting (fun l => l) std_accept (fun _ _ => false) (fun c => match c with 0 => [] | _ => [(tw_rank, 0, std_sp)] end) (fun _ => std_sp)
    (fun _ _ _ => CCost 0 (2 ^ 19) 0) 13 18 5.
Lemma forallb_len (o : gorder) : forallb (fun s => length (fst s) =? 2) o = true <-> Forall (fun s => length (fst s) = 2) o.
Proof. rewrite forallb_forall, Forall_forall. split; intros H s Hs; apply Nat.eqb_eq; auto. Qed.
Theorem C53_pairwise_refuted :
  ~ forall (T : Type) (x : setting T) (n : tn T) (orders : list cscheme) (s : cscheme),
      wf n -> wide_edges n -> lawful x -> candidates n orders -> run_slicer x n orders = Ok (Some s) -> pairwise (sc_order s).
Proof.
  intros H. destruct (tw_case 1 1) as (W & D & _ & C).
  assert (L : lawful up_set). { split; [intros; reflexivity|]. split; [|intros c; exact std_good]. intros [|c]; [apply Forall_nil|]. apply Forall_cons; [exact std_good|apply Forall_nil]. }
  destruct (run_slicer up_set tw_net tw_orders) as [[s|]|] eqn:E; try (vm_compute in E; discriminate E).
  specialize (H _ up_set tw_net tw_orders s W D L C E). vm_compute in E. inversion E; subst s. unfold pairwise in H. rewrite <- forallb_len in H. vm_compute in H. discriminate H.
Qed.
Print Assumptions C53_pairwise_refuted.

