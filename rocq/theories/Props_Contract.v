(** * Theorems about compiling and executing contractions (properties C01-C05, C31-C33, C43).

    The networks hold numpy arrays in their nodes.  [value n idx] (ContractUser.v, TNSpec.v) is the
    mathematical value of a network: the sum, over all values of its edges in the set each edge is
    restricted to, of the product of the entries of its nodes, at the values [idx] of the open edges.

    [contractible Ok n] (ContractFlat.v) says that [n] is a network a history of edits can produce,
    that every node holds an array of the shape of its edges, that open edges have a dimension, that
    closed fixed edges are fixed to one value, and that the reserved names of delta completion are
    free.  [good_scheme n o split] says that the scheme (order [o], sliced edges [split]) is one for
    the network the compiler works on. *)
From Verif Require Import Base Scalar NetSpec Sums NetAlg ModelArray ArrayProofs ModelTN TNInv TNOps
  TNExact TNSpec TNDelta TNDeltaValue ModelHist TNHist TNValue ModelContract ContractFix ContractNet ContractTemplate
  ContractExec ContractMerge ContractMain ContractFlat ContractSched NameOrder ContractData ContractSession
  ContractUser Examples ExamplesC.
Set Implicit Arguments.
Open Scope nat_scope.

(** discharging [contractible] for a network built by literal calls *)
Ltac by_build := apply build_contractible; [vm_compute; intuition congruence|vm_compute; reflexivity|vm_compute; reflexivity].
(** a computable form of [no_idle_edge] *)
Definition no_idleb (n : tn ZA) : bool :=
  forallb (fun p => mem (fst p) (opens n) || (match e_fix (snd p) with Some _ => true | None => false end)
                    || existsb (fun q => mem (fst p) (n_legs (snd q))) (nodes n)) (edges n) && nodupb (keys (nodes n)).
Lemma no_idleb_ok n : no_idleb n = true -> no_idle_edge n.
Proof.
  unfold no_idleb. intros H e ed G. apply andb_true_iff in H as [H N]. apply get_In in G.
  rewrite forallb_forall in H. specialize (H _ G). simpl in H. apply orb_true_iff in H as [H|H].
  - apply orb_true_iff in H as [H|H]; [left; apply mem_In; auto|].
    right; left. destruct (e_fix ed); [discriminate|discriminate].
  - right; right. apply existsb_exists in H as ([x d] & I & M). exists x, d. split.
    + apply In_get; auto. apply nodupb_NoDup; auto.
    + apply mem_In; auto.
Qed.
Definition small_memory : fits_memory 1024 1.
Proof. vm_compute. discriminate. Qed.

(** ** C01: contracting gives the defining sum *)

Theorem C01_contract_is_the_defining_sum :
  forall (S : scalar) (n : tn (nd S)) (o : order) (split : list name) (memory cost : Z),
    contractible Ok n -> no_idle_edge n -> good_scheme n o split -> fits_memory memory cost ->
    exists r, contract_net Ok memory cost o split n = Ok r /\ array_of_value n r.
Proof. intros. apply contract_value; auto. Qed.
Print Assumptions C01_contract_is_the_defining_sum.
(** a matrix-matrix-vector product, contracted along an order with a sliced edge *)
Example C01_holds_somewhere :
  contractible Ok cnet /\ no_idle_edge cnet /\ good_scheme cnet cord [j_] /\ fits_memory 1024 1 /\
  opens cnet = [i_] /\ map (fun i => value cnet [i]) [0; 1] = [87; 189]%Z.
Proof.
  split; [by_build|]. split; [apply no_idleb_ok; vm_compute; reflexivity|].
  split; [apply schemeb_ok; vm_compute; reflexivity|]. split; [exact small_memory|]. vm_compute. auto.
Qed.

(** In general the value is the result times the number of values of the idle edges: closed edges
    that are not fixed and not attached to any node. *)
Theorem C01_idle_edges_are_dropped :
  forall (S : scalar) (n : tn (nd S)) (o : order) (split : list name) (memory cost : Z),
    contractible Ok n -> good_scheme n o split -> fits_memory memory cost ->
    exists r, contract_net Ok memory cost o split n = Ok r /\
      map Some (nd_shape r) = map (edim n) (opens n) /\
      forall idx, length idx = length (opens n) -> value n idx = (knat S (idle_factor n) * nd_at r idx)%K.
Proof.
  intros S n o split memory cost C G M.
  destruct (@contract_net_ok S (nd S) _ (@nd_at S) Ok (nd_laws S) (nd_ev_laws S) n memory cost o split C G M)
    as (n' & r & _ & E & Sh & V).
  exists r. split; auto. split; auto. intros idx L. apply V; auto.
Qed.
Print Assumptions C01_idle_edges_are_dropped.
Example C01_idle_somewhere :
  contractible Ok idle_net /\ good_scheme idle_net [] [] /\ idle_factor idle_net = 2 /\ value idle_net [] = 14%Z.
Proof.
  split; [by_build|]. split; [apply schemeb_ok; vm_compute; reflexivity|].
  vm_compute; auto.
Qed.

(** So without the hypothesis on idle edges the property fails: an unattached closed edge is a loop
    whose value is its dimension, but contract() ignores it. *)
Theorem C01_idle_edge_refuted :
  ~ forall (n : tn (nd ZK)) (o : order) (split : list name) (memory cost : Z),
      contractible Ok n -> good_scheme n o split -> fits_memory memory cost ->
      exists r, contract_net Ok memory cost o split n = Ok r /\ array_of_value n r.
Proof.
  intros H. destruct C01_idle_somewhere as (C & G & _ & _).
  destruct (H idle_net [] [] 1024%Z 1%Z C G small_memory) as (r & E & _ & V).
  assert (Q : entries_of (contract_net Ok 1024 1 [] [] idle_net) [[]] = Ok ([], [7%Z])) by (vm_compute; reflexivity).
  rewrite E in Q. specialize (V [] eq_refl). cbn [entries_of map] in Q. rewrite V in Q. vm_compute in Q. discriminate.
Qed.
Print Assumptions C01_idle_edge_refuted.

(** ** C02: the result does not depend on the order *)

Theorem C02_order_independent :
  forall (S : scalar) (n : tn (nd S)) (o o' : order) (split : list name) (memory cost cost' : Z),
    contractible Ok n -> good_scheme n o split -> good_scheme n o' split ->
    fits_memory memory cost -> fits_memory memory cost' ->
    exists r r', contract_net Ok memory cost o split n = Ok r /\
      contract_net Ok memory cost' o' split n = Ok r' /\ same_array r r'.
Proof. intros. apply contract_same; auto. Qed.
Print Assumptions C02_order_independent.
Example C02_holds_somewhere :
  contractible Ok cnet /\ cord <> cord2 /\ good_scheme cnet cord [] /\ good_scheme cnet cord2 [].
Proof.
  split; [by_build|]. split; [discriminate|].
  split; apply schemeb_ok; vm_compute; reflexivity.
Qed.

(** ** C03: slicing does not change the result *)

(** Slicing any edges of positive dimension that are attached to a node and not already fixed; if an
    open edge is sliced, the number of subtasks must not be 1 ([merge_ok] in [good_scheme]). *)
Theorem C03_slicing_invariant :
  forall (S : scalar) (n : tn (nd S)) (o o' : order) (split : list name) (memory cost cost' : Z),
    contractible Ok n -> good_scheme n o split -> good_scheme n o' [] ->
    fits_memory memory cost -> fits_memory memory cost' ->
    exists r r', contract_net Ok memory cost o split n = Ok r /\
      contract_net Ok memory cost' o' [] n = Ok r' /\ same_array r r'.
Proof. intros. apply contract_same; auto. Qed.
Print Assumptions C03_slicing_invariant.
(** slicing an open and a closed edge at once *)
Example C03_holds_somewhere :
  contractible Ok cnet /\ good_scheme cnet cord [j_; i_] /\ good_scheme cnet cord2 [] /\ In i_ (opens cnet) /\
  ~ In j_ (opens cnet).
Proof.
  split; [by_build|].
  split; [apply schemeb_ok; vm_compute; reflexivity|]. split; [apply schemeb_ok; vm_compute; reflexivity|].
  split; [vm_compute; auto|]. apply mem_false. vm_compute; reflexivity.
Qed.

(** The claim "any duplicate-free list of edges may be sliced" is false of the program, in three ways. *)
Definition slicing_changes_nothing (n : tn (nd ZK)) (split : list name) : Prop :=
  exists r r', contract_net Ok 1024 1 [] split n = Ok r /\ contract_net Ok 1024 1 [] [] n = Ok r' /\ same_array r r'.
Definition arbitrary_slices (n : tn (nd ZK)) (split : list name) : Prop :=
  contractible Ok n /\ NoDup split /\ forall e, In e split -> In e (keys (edges n)).
(** 1. an open edge of dimension 1: its axis is lost *)
Theorem C03_dim1_open_edge_refuted : exists n split, arbitrary_slices n split /\ ~ slicing_changes_nothing n split.
Proof.
  exists dim1_net, [i_]. split.
  - split; [by_build|].
    split; [apply nodupb_NoDup; reflexivity|]. intros e [<-|[]]. vm_compute. auto.
  - intros (r & r' & E & E' & Sh & _).
    assert (Q : entries_of (contract_net Ok 1024 1 [] [i_] dim1_net) [] = Ok ([], [])) by (vm_compute; reflexivity).
    assert (Q' : entries_of (contract_net Ok 1024 1 [] [] dim1_net) [] = Ok ([1], [])) by (vm_compute; reflexivity).
    rewrite E in Q. rewrite E' in Q'. simpl in Q, Q'. congruence.
Qed.
Print Assumptions C03_dim1_open_edge_refuted.
(** 2. a fixed edge: the result is multiplied by its dimension *)
Theorem C03_fixed_edge_refuted : exists n split, arbitrary_slices n split /\ ~ slicing_changes_nothing n split.
Proof.
  exists fixed_net, [i_]. split.
  - split; [by_build|].
    split; [apply nodupb_NoDup; reflexivity|]. intros e [<-|[]]. vm_compute. auto.
  - intros (r & r' & E & E' & Sh & V).
    assert (Q : entries_of (contract_net Ok 1024 1 [] [i_] fixed_net) [[]] = Ok ([], [8%Z])) by (vm_compute; reflexivity).
    assert (Q' : entries_of (contract_net Ok 1024 1 [] [] fixed_net) [[]] = Ok ([], [4%Z])) by (vm_compute; reflexivity).
    rewrite E in Q. rewrite E' in Q'. cbn [entries_of map] in Q, Q'. injection Q as Q1 Q2. injection Q' as Q1' Q2'.
    specialize (V []). rewrite Q1 in V. specialize (V eq_refl). congruence.
Qed.
Print Assumptions C03_fixed_edge_refuted.
(** 3. an edge of dimension 0: AssertionError *)
Theorem C03_dim0_edge_refuted : exists n split, arbitrary_slices n split /\ ~ slicing_changes_nothing n split.
Proof.
  exists dim0_net, [i_]. split.
  - split; [by_build|].
    split; [apply nodupb_NoDup; reflexivity|]. intros e [<-|[]]. vm_compute. auto.
  - intros (r & r' & E & _).
    assert (Q : entries_of (contract_net Ok 1024 1 [] [i_] dim0_net) [[]] = Err AssertionError) by (vm_compute; reflexivity).
    rewrite E in Q. discriminate.
Qed.
Print Assumptions C03_dim0_edge_refuted.

(** ** C04: the subtasks enumerate the slices *)

(** the product of the dimensions of the sliced edges, each taken once *)
Definition number_of_slices {S : scalar} (n : tn (nd S)) (split : list name) : nat :=
  fold_right (fun e k => match edim n e with Some d => d | None => 0 end * k) 1 (dedup split).

Theorem C04_subtasks_enumerate_slices :
  forall (S : scalar) (n : tn (nd S)) (o : order) (split : list name) (memory cost : Z),
    contractible Ok n -> good_scheme n o split -> fits_memory memory cost ->
    exists n' t st (asg : nat -> name -> nat),
      (* the compiled task and its network *)
      complete_delta (copy_tn n) = (n', Ok tt) /\ compile_net Ok memory cost o split n = Ok (t, st) /\
      (* [asg] is a bijection between the subtasks and the assignments of the sliced edges *)
      t_len t = number_of_slices n' split /\
      (forall k e d, In e split -> edim n' e = Some d -> asg k e < d) /\
      (forall v : name -> nat, (forall e d, In e split -> edim n' e = Some d -> v e < d) ->
         exists k, k < t_len t /\ forall e, In e split -> asg k e = v e) /\
      (forall k k', k < t_len t -> k' < t_len t -> (forall e, In e split -> asg k e = asg k' e) -> k = k') /\
      (* subtask [k] computes the network with the sliced edges fixed to [asg k] *)
      (forall k, exists r, run_steps t [Create k; Run 0] [] st = Ok [r] /\
         forall idx, nd_at r idx = value (prune (slice_net n' split (asg k))) idx) /\
      (* whatever the results of the subtasks are, each of them is added to the entries of the merged
         array that agree with its slice on the open sliced edges, and to no others *)
      (forall results : list (nat * nd S),
         map fst results = seq 0 (t_len t) ->
         (forall k r, In (k, r) results ->
            map Some (nd_shape r) = map (edim n') (filter (fun e => negb (mem e split)) (opens n'))) ->
         exists r, merge t results = Ok r /\ map Some (nd_shape r) = map (edim n') (opens n') /\
           forall u : name -> nat,
             nd_at r (map u (opens n')) =
             sumf (fun p => kmul (kdelta (eqb (map u (filter (fun e => mem e split) (opens n')))
                                              (map (asg (fst p)) (filter (fun e => mem e split) (opens n')))))
                                 (nd_at (snd p) (map u (filter (fun e => negb (mem e split)) (opens n'))))) results).
Proof.
  intros S n o split memory cost C G M.
  destruct (@compile_net_ok S (nd S) _ (@nd_at S) Ok (nd_laws S) (nd_ev_laws S) n memory cost o split C G M)
    as (n' & path & st & D & E & R & Gs & MO & PO & Gd & _).
  assert (Sz : forall e, In e split -> edim n' e = Some (size n' e)).
  { intros e I. apply (att_dim R). apply (gs_att Gs); auto. }
  assert (So : forall e, In e (opens n') -> edim n' e = Some (size n' e)).
  { intros e I. apply (att_dim R). apply (rd_open R e I). }
  assert (Len : t_len (the_task n' split path) = slices_count n' split).
  { cbn [t_len the_task]. rewrite (the_fix_entries R Gs), (entries_length (stg n')). apply dlen_split; auto. }
  assert (Cnt : slices_count n' split = number_of_slices n' split).
  { unfold number_of_slices, slices_count. assert (Sd : forall e, In e (dedup split) -> edim n' e = Some (size n' e)) by (intros e I; apply Sz, dedup_In, I). clear - Sd.
    induction (dedup split) as [|e r IH]; simpl; auto. rewrite (Sd e) by (simpl; auto). rewrite IH; auto. intros; apply Sd; simpl; auto. }
  exists n', (the_task n' split path), st, (subtask_slice n' split).
  split; auto. split; auto. split; [congruence|]. rewrite Len.
  split; [|split; [|split; [|split]]].
  - intros k e d I Hd. rewrite (Sz e I) in Hd. inversion Hd; subst. apply slice_range; auto.
  - intros v Hv. apply slice_surj; auto.
  - intros k k' L L' H. apply (@slice_inj S n' split); auto.
  - intros k.
    destruct (@run_steps_ok S (nd S) Ok n' split R Gs (@nd_at S) ltac:(intros t a Q i _; inversion Q; auto)
                path [Create k; Run 0] PO [] 0 st Gd (Forall_nil _) ltac:(congruence) ltac:(simpl; lia)) as (rs & E1 & F).
    simpl in F. inversion F as [|? r ? ? Hr F']; subst. inversion F'; subst. exists r. split; auto.
    intros idx. apply (proj2 Hr).
  - intros results Ks Rs.
    assert (Lst : filter (fun e => negb (mem e (sub_opens n' split))) (opens n') = filter (fun e => mem e split) (opens n')).
    { clear. apply filter_ext_in. intros e I. unfold sub_opens.
      destruct (mem e split) eqn:Q; [apply negb_true_iff, mem_false|apply negb_false_iff, mem_In]; rewrite filter_In, Q; simpl.
      - intros [_ Z]; discriminate.
      - auto. }
    destruct (@merge_places S (nd S) Ok n' split R Gs path results MO) as (r & E1 & E2 & E3).
    + rewrite Ks, dlen_split; auto.
    + intros k r I. specialize (Rs k r I).
      assert (Q : map Some (map (size n') (sub_opens n' split)) = map Some (nd_shape r)).
      { rewrite Rs, map_map. apply map_ext_in. intros e Ie. symmetry. apply So. apply sub_opens_In in Ie. apply Ie. }
      clear - Q. revert Q. generalize (map (size n') (sub_opens n' split)), (nd_shape r).
      induction l as [|a l IH]; intros [|b k] E; simpl in E; try discriminate; auto. inversion E. f_equal; auto.
    + exists r. split; auto. split.
      * rewrite E2, map_map. apply map_ext_in. intros e Ie. symmetry. auto.
      * intros u. rewrite E3, Lst. reflexivity.
Qed.
Print Assumptions C04_subtasks_enumerate_slices.
Example C04_holds_somewhere :
  contractible Ok cnet /\ good_scheme cnet cord [j_; i_] /\
  exists t st, compile_net Ok 1024 1 cord [j_; i_] cnet = Ok (t, st) /\ t_len t = 6 /\
    map (fun k => match run_steps t [Create k; Run 0] [] st with Ok [r] => nd_at r [] | _ => 0%Z end) (seq 0 6)
    = [2; 8; 22; 55; 63; 126]%Z.
Proof.
  split; [by_build|]. split; [apply schemeb_ok; vm_compute; reflexivity|].
  eexists _, _. split; [vm_compute; reflexivity|]. split; vm_compute; reflexivity.
Qed.

(** ** C05: schedules of subtasks *)

(** Executing a subtask computes the slice of the subtask created last, whichever subtask is executed. *)
Theorem C05_execution_uses_last_created_slice :
  forall (S : scalar) (n : tn (nd S)) (o : order) (split : list name) (memory cost : Z),
    contractible Ok n -> good_scheme n o split -> fits_memory memory cost ->
    exists t st (slice : nat -> nd S),
      compile_net Ok memory cost o split n = Ok (t, st) /\
      (* [slice k] is what subtask [k] gives when it is executed right after its creation *)
      (forall k, exists r, run_steps t [Create k; Run 0] [] st = Ok [r] /\ same_array r (slice k)) /\
      forall ops : list step, steps_ok ops 0 ->
        exists rs, run_steps t ops [] st = Ok rs /\
          Forall2 (fun k r => same_array r (slice k)) (last_created ops 0) rs.
Proof.
  intros S n o split memory cost C G M.
  destruct (@compile_net_ok S (nd S) _ (@nd_at S) Ok (nd_laws S) (nd_ev_laws S) n memory cost o split C G M)
    as (n' & path & st & D & E & R & Gs & MO & PO & Gd & _).
  set (slice := fun k => ND (S := S) (map (size n') (sub_opens n' split))
                            (fun idx => value (prune (slice_net n' split (sigma n' split k))) idx)).
  assert (Q : forall ops, steps_ok ops 0 -> exists rs, run_steps (the_task n' split path) ops [] st = Ok rs /\
            Forall2 (fun k r => same_array r (slice k)) (last_created ops 0) rs).
  { intros ops Ho.
    destruct (@run_steps_ok S (nd S) Ok n' split R Gs (@nd_at S) ltac:(intros t a Q i _; inversion Q; auto)
                path ops PO [] 0 st Gd (Forall_nil _) ltac:(congruence) Ho) as (rs & E1 & F).
    exists rs. split; auto. clear - F. induction F as [|k r l l' [Sh V] F IH]; constructor; auto.
    split; auto. intros idx _. apply V. }
  exists (the_task n' split path), st, slice. split; auto. split; auto.
  intros k. destruct (Q [Create k; Run 0] ltac:(simpl; lia)) as (rs & E1 & F).
  simpl in F. inversion F as [|? r ? ? Hr F']; subst. inversion F'; subst. exists r. auto.
Qed.
Print Assumptions C05_execution_uses_last_created_slice.
Example C05_last_created_somewhere :
  contractible Ok cnet /\ good_scheme cnet cord [j_] /\
  steps_ok [Create 0; Run 0; Create 2; Create 1; Run 0; Run 1; Create 0; Run 3] 0 /\
  last_created [Create 0; Run 0; Create 2; Create 1; Run 0; Run 1; Create 0; Run 3] 0 = [0; 1; 1; 0].
Proof.
  split; [by_build|]. split; [apply schemeb_ok; vm_compute; reflexivity|]. split; vm_compute; auto 10.
Qed.

(** Hence a subtask gives its own slice when no other subtask is created between its creation and its
    execution, however many creations and executions happen before and after. *)
Definition no_creation_in_between (ops : list step) : Prop := own_slice ops [] = last_created ops 0.
Theorem C05_subtask_independent :
  forall (S : scalar) (n : tn (nd S)) (o : order) (split : list name) (memory cost : Z),
    contractible Ok n -> good_scheme n o split -> fits_memory memory cost ->
    exists t st (slice : nat -> nd S),
      compile_net Ok memory cost o split n = Ok (t, st) /\
      (forall k, exists r, run_steps t [Create k; Run 0] [] st = Ok [r] /\ same_array r (slice k)) /\
      forall ops : list step, steps_ok ops 0 -> no_creation_in_between ops ->
        exists rs, run_steps t ops [] st = Ok rs /\
          Forall2 (fun k r => same_array r (slice k)) (own_slice ops []) rs.
Proof.
  intros S n o split memory cost C G M.
  destruct (C05_execution_uses_last_created_slice C G M) as (t & st & slice & E & A & B).
  exists t, st, slice. split; auto. split; auto. intros ops Ho Hn. rewrite Hn. auto.
Qed.
Print Assumptions C05_subtask_independent.
Example C05_independent_somewhere :
  no_creation_in_between [Create 2; Run 0; Create 0; Run 1; Run 1; Create 1; Run 2] /\
  steps_ok [Create 2; Run 0; Create 0; Run 1; Run 1; Create 1; Run 2] 0.
Proof. split; vm_compute; auto 10. Qed.

(** Without that condition the property fails: the subtasks share the cells that hold their slice. *)
Theorem C05_interleaving_refuted :
  exists (n : tn (nd ZK)) (o : order) (split : list name) t st,
    contractible Ok n /\ good_scheme n o split /\ compile_net Ok 1024 1 o split n = Ok (t, st) /\
    exists r r', run_steps t [Create 0; Run 0] [] st = Ok [r] /\
      run_steps t [Create 0; Create 1; Run 0] [] st = Ok [r'] /\ ~ same_array r r'.
Proof.
  destruct (compile_net Ok 1024 1 cord [j_] cnet) as [[t st]|] eqn:E; [|vm_compute in E; discriminate].
  exists cnet, cord, [j_], t, st.
  split; [by_build|]. split; [apply schemeb_ok; vm_compute; reflexivity|]. split; auto.
  assert (Q : exists r r', run_steps t [Create 0; Run 0] [] st = Ok [r] /\
      run_steps t [Create 0; Create 1; Run 0] [] st = Ok [r'] /\
      nd_shape r = [2] /\ nd_at r [0] = 2%Z /\ nd_at r' [0] = 22%Z).
  { vm_compute in E. inversion E; subst. eexists _, _. split; [vm_compute; reflexivity|].
    split; [vm_compute; reflexivity|]. vm_compute; auto. }
  destruct Q as (r & r' & E1 & E2 & Sh & V & V'). exists r, r'. split; auto. split; auto.
  intros [_ Sv]. specialize (Sv [0]). rewrite Sh in Sv. specialize (Sv eq_refl). rewrite V, V' in Sv. discriminate.
Qed.
Print Assumptions C05_interleaving_refuted.

(** ** C31: set_data *)

(** Execution after [set_data d] computes the network whose node [x] holds [d[x]], for any order of
    the entries of [d], whenever the node names are comparable with each other, or have different
    string forms.  [d] has an array for every node of the network the task was compiled for. *)
Theorem C31_set_data_binds_by_name :
  forall (S : scalar) (n : tn (nd S)) (o : order) (split : list name) (memory cost : Z),
    contractible Ok n -> no_idle_edge n -> good_scheme n o split -> fits_memory memory cost ->
    exists n' t st,
      complete_delta (copy_tn n) = (n', Ok tt) /\ compile_net Ok memory cost o split n = Ok (t, st) /\
      forall d : list (name * nd S),
        comparable (keys (nodes n')) \/ str_distinct (keys (nodes n')) ->
        fits_net n' d ->
        exists r st', execute t (set_data d st) = Ok (r, st') /\ array_of_value (with_arrays n' d) r.
Proof.
  intros S n o split memory cost C N G M.
  destruct (@compile_net_ok S (nd S) _ (@nd_at S) Ok (nd_laws S) (nd_ev_laws S) n memory cost o split C G M)
    as (n' & path & st & D & E & R & Gs & MO & PO & Gd & _ & Ed & Gr).
  exists n', (the_task n' split path), st. split; auto. split; auto. intros d Cmp F.
  destruct (@session S split path [TSetData d; TExecute] n' st R Gs PO MO Cmp (good_ready_state Gd))
    as (rs & E1 & F2); [simpl; auto|].
  cbn [run_calls] in E1. destruct (execute (the_task n' split path) (set_data d st)) as [[r st']|]; [|discriminate].
  simpl in E1. inversion E1; subst rs. exists r, st'. split; auto.
  cbn [executed after_call] in F2. inversion F2 as [|? ? ? ? [Sh V] _]; subst. split; auto.
  intros idx L. rewrite V by auto. unfold value. f_equal. apply prune_same.
  - apply (rd_wf (with_arrays_ready R F)).
  - assert (N' : no_idle_edge n') by (eapply no_idle_grows; eauto; [apply C|apply R]).
    intros e ed Ge. destruct (N' e ed Ge) as [Q|[Q|(x & v & Gx & Q)]]; auto. right; right.
    exists x. exists (Node (n_legs v) (n_mut v) (get x d)). split; auto.
    rewrite with_arrays_get, Gx. auto.
Qed.
Print Assumptions C31_set_data_binds_by_name.
Definition new_data : list (name * nd ZK) :=
  [(c_, avec [1; 1]%Z); (b_, amat 3 2 [1;0;0;1;1;1]%Z); (a_, amat 2 3 [1;0;0;0;1;0]%Z)].
Example C31_holds_somewhere :
  contractible Ok cnet /\ no_idle_edge cnet /\ good_scheme cnet cord [j_] /\
  exists n', complete_delta (copy_tn cnet) = (n', Ok tt) /\ comparable (keys (nodes n')) /\ fits_net n' new_data.
Proof.
  split; [by_build|]. split; [apply no_idleb_ok; vm_compute; reflexivity|].
  split; [apply schemeb_ok; vm_compute; reflexivity|].
  eexists. split; [vm_compute; reflexivity|]. split; [|constructor].
  - intros a b Ia Ib _. vm_compute in Ia, Ib. intuition (subst; vm_compute; eauto).
  - vm_compute. apply Permutation_rev with (l := [a_; b_; c_]).
  - intros x v a G1 G2. apply get_In in G1. vm_compute in G1.
    destruct G1 as [G1|[G1|[G1|[]]]]; inversion G1; subst; vm_compute in G2; inversion G2; subst; vm_compute; reflexivity.
Qed.

(** Any number of calls of set_data, update_fix and execute, in any order: every execution returns the
    value of the network with the data set last and the fixes given last. *)
Theorem C31_task_follows_its_network :
  forall (S : scalar) (n : tn (nd S)) (o : order) (split : list name) (memory cost : Z),
    contractible Ok n -> good_scheme n o split -> fits_memory memory cost ->
    exists n' t st,
      complete_delta (copy_tn n) = (n', Ok tt) /\ compile_net Ok memory cost o split n = Ok (t, st) /\
      forall calls : list (tcall (S := S)),
        comparable (keys (nodes n')) \/ str_distinct (keys (nodes n')) ->
        calls_ok split calls n' ->
        exists rs, run_calls calls t st = Ok rs /\
          Forall2 (fun c r => array_of_value (prune c) r) (executed calls n') rs.
Proof.
  intros S n o split memory cost C G M.
  destruct (@compile_net_ok S (nd S) _ (@nd_at S) Ok (nd_laws S) (nd_ev_laws S) n memory cost o split C G M)
    as (n' & path & st & D & E & R & Gs & MO & PO & Gd & _ & Ed & Gr).
  exists n', (the_task n' split path), st. split; auto. split; auto. intros calls Cmp F.
  destruct (@session S split path calls n' st R Gs PO MO Cmp (good_ready_state Gd) F) as (rs & E1 & F2).
  exists rs. split; auto. clear - F2. induction F2 as [|c r l l' [Sh V] F IH]; constructor; auto.
  split; auto. rewrite Sh. apply map_ext_in. intros e Ie. unfold edim, prune. cbn [edges with_edges opens].
  assert (Q : forall l0 (c0 : tn (nd S)), In e (opens c0) -> get e (filter (fun p : name * edge => fixedb c0 (fst p) || attachedb c0 (fst p) || mem (fst p) (opens c0)) l0) = get e l0).
  { induction l0 as [|[a ad] q IHq]; intros c0 I0; auto. cbn [filter fst].
    destruct (fixedb c0 a || attachedb c0 a || mem a (opens c0)) eqn:Z; cbn [get]; destruct (eqb_spec e a) as [->|]; auto.
    rewrite (proj2 (mem_In _ _) I0), !orb_true_r in Z. discriminate. }
  rewrite Q; auto.
Qed.
Print Assumptions C31_task_follows_its_network.
Example C31_session_somewhere :
  exists n', complete_delta (copy_tn cnet) = (n', Ok tt) /\ comparable (keys (nodes n')) /\
    calls_ok [j_] [TExecute; TSetData new_data; TExecute; TExecute; TUpdateFix cnet; TExecute] n'.
Proof.
  destruct C31_holds_somewhere as (_ & _ & _ & n' & D & Cm & F). exists n'. split; auto. split; auto.
  assert (Q : n' = fst (complete_delta (copy_tn cnet))) by (rewrite D; auto).
  cbn [calls_ok call_ok after_call]. split; auto. split; auto. split; auto. split; auto. split; [|auto].
  split.
  - intros e Fe. exfalso. subst n'. vm_compute in Fe.
    repeat match type of Fe with context [if ?b then _ else _] => destruct b end; discriminate.
  - intros e [<-|[]]. eexists. split; vm_compute; reflexivity.
Qed.

(** Where the binding fails.
    1. Names with the same string form that cannot be compared, here 1 and '1': the arrays are swapped
       when the dictionary lists them in another order. *)
Definition tie_net : tn (nd ZK) :=
  build [CAddNode (NI 1) (Some [i_]) (avec [1;2]%Z) true; CAddNode (NS "1") (Some [j_]) (avec [3;4]%Z) true].
Definition tie_data : list (name * nd ZK) := [(NS "1", avec [30;40]%Z); (NI 1, avec [10;20]%Z)].
Theorem C31_equal_string_forms_refuted :
  contractible Ok tie_net /\ good_scheme tie_net [] [] /\ fits_net tie_net tie_data /\
  exists t st r st', compile_net Ok 1024 1 [] [] tie_net = Ok (t, st) /\
    execute t (set_data tie_data st) = Ok (r, st') /\
    nd_at r [0; 1] <> value (with_arrays tie_net tie_data) [0; 1].
Proof.
  split; [by_build|]. split; [apply schemeb_ok; vm_compute; reflexivity|]. split.
  - constructor.
    + vm_compute. apply perm_swap.
    + intros x v a G1 G2. apply get_In in G1. vm_compute in G1.
      destruct G1 as [G1|[G1|[]]]; inversion G1; subst; vm_compute in G2; inversion G2; subst; vm_compute; reflexivity.
  - eexists _, _, _, _. split; [vm_compute; reflexivity|]. split; [vm_compute; reflexivity|]. vm_compute. discriminate.
Qed.
Print Assumptions C31_equal_string_forms_refuted.

(** 2. A dictionary with further entries: the arrays are assigned by position in the sorted list. *)
Definition super_data : list (name * nd ZK) := (NS "A", avec [5; 5]%Z) :: new_data.
Theorem C31_superset_refuted :
  (forall x v, get x new_data = Some v -> get x super_data = Some v) /\
  exists t st e, compile_net Ok 1024 1 cord [j_] cnet = Ok (t, st) /\ execute t (set_data super_data st) = Err e.
Proof.
  split.
  - intros x v G. unfold super_data. cbn [get]. destruct (eqb_spec x (NS "A")) as [->|]; auto. vm_compute in G. discriminate.
  - eexists _, _, _. split; [vm_compute; reflexivity|]. vm_compute. reflexivity.
Qed.
Print Assumptions C31_superset_refuted.

(** 3. Subtasks: after a subtask has been created, set_data has no effect on subtasks created later. *)
Theorem C31_subtasks_use_stale_data_refuted :
  exists t st t1 st1 t2 st2 r st3 t4 st4 r' st5,
    compile_net Ok 1024 1 cord [j_] cnet = Ok (t, st) /\
    (* task[0]; task.set_data(new_data); task[0].execute() *)
    getitem t 0 st = Ok (t1, st1) /\ getitem t 0 (set_data new_data st1) = Ok (t2, st2) /\
    exec t2 st2 = Ok (r, st3) /\
    (* task.set_data(new_data); task[0].execute() *)
    getitem t 0 (set_data new_data st) = Ok (t4, st4) /\ exec t4 st4 = Ok (r', st5) /\
    nd_at r [0] = 2%Z /\ nd_at r' [0] = 1%Z.
Proof.
  eexists _, _, _, _, _, _, _, _, _, _, _, _.
  split; [vm_compute; reflexivity|]. split; [vm_compute; reflexivity|]. split; [vm_compute; reflexivity|].
  split; [vm_compute; reflexivity|]. split; [vm_compute; reflexivity|]. split; [vm_compute; reflexivity|].
  vm_compute. auto.
Qed.
Print Assumptions C31_subtasks_use_stale_data_refuted.

(** ** C32: update_fix is recompilation *)

Theorem C32_update_fix_recompiles :
  forall (S : scalar) (n m : tn (nd S)) (o : order) (split : list name) (memory cost : Z),
    contractible Ok n -> contractible Ok m -> only_fixes_differ n m ->
    good_scheme n o split -> (forall e, In e split -> exists ed, get e (edges n) = Some ed /\ e_fix ed = None) ->
    fits_memory memory cost ->
    exists t st t' st' r st'' r',
      compile_net Ok memory cost o split n = Ok (t, st) /\
      update_fix (fix_attr m) t st = Ok (t', st') /\ execute t' st' = Ok (r, st'') /\
      contract_net Ok memory cost o split m = Ok r' /\ same_array r r'.
Proof. intros S n m o split memory cost. apply update_fix_recompiles. Qed.
Print Assumptions C32_update_fix_recompiles.
Definition fix_at (v : nat) : tn (nd ZK) := build (cex ++ [CFixEdge k_ [v] false]).
Example C32_holds_somewhere :
  contractible Ok (fix_at 0) /\ contractible Ok (fix_at 1) /\ only_fixes_differ (fix_at 0) (fix_at 1) /\
  good_scheme (fix_at 0) cord [j_] /\
  (forall e, In e [j_] -> exists ed, get e (edges (fix_at 0)) = Some ed /\ e_fix ed = None) /\
  map (fun i => value (fix_at 0) [i]) [0; 1] = [10; 28]%Z /\
  map (fun i => value (fix_at 1) [i]) [0; 1] = [77; 161]%Z.
Proof.
  split; [by_build|]. split; [by_build|]. split.
  { split; [vm_compute; reflexivity|]. split; [vm_compute; reflexivity|]. split; [vm_compute; reflexivity|].
    vm_compute. repeat constructor; simpl; auto; intros H; try discriminate H; intuition discriminate. }
  split; [apply schemeb_ok; vm_compute; reflexivity|]. split.
  { intros e [<-|[]]. eexists. split; vm_compute; reflexivity. }
  split; vm_compute; reflexivity.
Qed.

(** The condition on the sliced edges is needed: when an edge created by the compiler is sliced,
    update_fix raises KeyError (here for the network the task was compiled from). *)
Definition diag_net : tn (nd ZK) := build [CAddNode a_ (Some [i_]) (avec [3;4]%Z) false; COpenEdge i_ None; COpenEdge i_ None].
Theorem C32_sliced_delta_edge_refuted :
  exists (n : tn (nd ZK)) split t st,
    contractible Ok n /\ good_scheme n [] split /\ compile_net Ok 1024 1 [] split n = Ok (t, st) /\
    update_fix (fix_attr n) t st = Err KeyError.
Proof.
  exists diag_net, (filter (fun e => negb (eqb e i_)) (keys (edges (fst (complete_delta (copy_tn diag_net)))))).
  eexists _, _. split; [by_build|]. split; [apply schemeb_ok; vm_compute; reflexivity|].
  split; vm_compute; reflexivity.
Qed.
Print Assumptions C32_sliced_delta_edge_refuted.

(** ** C33: fixes with several values *)

(** One value (closed edge) or any set of values (open edge) is C01.  No value: the result is the zero
    array, which is the value. *)
Theorem C33_no_value_gives_zero :
  forall (S : scalar) (n : tn (nd S)) (o : order) (split : list name) (memory cost : Z) (e : name) (ed : edge),
    inv n -> fix_nodup n -> delta_names_free n -> ~ In star (keys (nodes n)) ->
    (forall e, In e (opens n) -> exists d, edim n e = Some d) -> typed Ok n ->
    get e (edges n) = Some ed -> e_fix ed = Some [] -> ~ In e (opens n) -> fits_memory memory cost ->
    exists r, contract_net Ok memory cost o split n = Ok r /\ array_of_value n r /\
      forall idx, nd_at r idx = k0.
Proof. intros S n o split memory cost e ed. apply empty_fix_zero. Qed.
Print Assumptions C33_no_value_gives_zero.
Definition empty_cs : list (call ZA) :=
  [CAddNode a_ (Some [i_; j_]) (amat 2 2 [3;4;5;6]%Z) false; COpenEdge j_ None;
   CFixEdge i_ [0] false; CFixEdge i_ [1] false].
Example C33_no_value_somewhere :
  inv (build empty_cs) /\ fix_nodup (build empty_cs) /\ delta_names_free (build empty_cs) /\
  ~ In star (keys (nodes (build empty_cs))) /\ typed (S := ZK) Ok (build empty_cs) /\
  exists ed, get i_ (edges (build empty_cs)) = Some ed /\ e_fix ed = Some [] /\ ~ In i_ (opens (build empty_cs)).
Proof.
  assert (H : inv (build empty_cs) /\ fix_nodup (build empty_cs)).
  { apply build_inv; [vm_compute; intuition congruence|vm_compute; reflexivity]. }
  assert (P : delta_names_free (build empty_cs) /\ ~ In star (keys (nodes (build empty_cs))))
    by (apply plain_free; vm_compute; reflexivity).
  split; [apply H|]. split; [apply H|]. split; [apply P|]. split; [apply P|].
  split; [apply typedb_ok; vm_compute; reflexivity|]. eexists. split; [vm_compute; reflexivity|].
  split; [reflexivity|]. apply mem_false. vm_compute; reflexivity.
Qed.

(** An open edge fixed to several values: the entries at other values are zero. *)
Example C33_open_edge_somewhere :
  let n := build [CAddNode a_ (Some [i_]) (avec [3;4;5]%Z) true; CFixEdge i_ [1;2] false] in
  contractible Ok n /\ good_scheme n [] [] /\ map (fun i => value n [i]) [0;1;2] = [0;4;5]%Z.
Proof.
  cbv zeta. split; [by_build|]. split; [apply schemeb_ok; vm_compute; reflexivity|]. vm_compute; auto.
Qed.

(** A closed edge fixed to several values: the sum is not taken over these values.  The network below
    has value 4 + 5, but the first value is used for both terms: 4 + 4. *)
Theorem C33_closed_edge_refuted :
  inv multi_net /\ fix_nodup multi_net /\ typed (S := ZK) Ok multi_net /\ no_idle_edge multi_net /\
  good_scheme multi_net [] [] /\ value multi_net [] = 9%Z /\
  exists r, contract_net Ok 1024 1 [] [] multi_net = Ok r /\ nd_at r [] = 8%Z.
Proof.
  assert (H : inv multi_net /\ fix_nodup multi_net).
  { apply build_inv; [vm_compute; intuition congruence|vm_compute; reflexivity]. }
  split; [apply H|]. split; [apply H|]. split; [apply typedb_ok; vm_compute; reflexivity|].
  split; [apply no_idleb_ok; vm_compute; reflexivity|]. split; [apply schemeb_ok; vm_compute; reflexivity|].
  split; [vm_compute; reflexivity|]. eexists. split; [vm_compute; reflexivity|]. vm_compute; reflexivity.
Qed.
Print Assumptions C33_closed_edge_refuted.

(** ** C43: the memory guard *)

(** [cost] is the number of entries of the largest intermediate ([scheme.cost.t]); three such arrays of
    16-byte numbers must fit into [memory] GiB.  Compilation raises RuntimeError exactly otherwise, and
    the memory has no other influence. *)
Theorem C43_memory_guard :
  forall (S : scalar) (n : tn (nd S)) (o : order) (split : list name) (memory cost : Z),
    contractible Ok n -> good_scheme n o split ->
    (compile_net Ok memory cost o split n = Err RuntimeError <-> (3 * 16 * cost > memory * 1024 * 1024 * 1024)%Z) /\
    ((3 * 16 * cost <= memory * 1024 * 1024 * 1024)%Z ->
       exists t st, compile_net Ok memory cost o split n = Ok (t, st) /\
         forall memory' cost', (3 * 16 * cost' <= memory' * 1024 * 1024 * 1024)%Z ->
           compile_net Ok memory' cost' o split n = Ok (t, st)).
Proof.
  intros S n o split memory cost C G.
  destruct (@memory_guard S n memory cost o split C G) as (A & B & D).
  assert (Eq : forall m c, fits_memory m c <-> (3 * 16 * c <= m * 1024 * 1024 * 1024)%Z).
  { intros m c. unfold fits_memory. change (2 ^ 30)%Z with (1024 * 1024 * 1024)%Z. lia. }
  split; [split|].
  - intros E. apply Z.lt_gt, Z.nle_gt. intros M. destruct (B (proj2 (Eq _ _) M)) as (t & st & E'). rewrite E in E'. discriminate.
  - intros M. apply A. rewrite Eq. lia.
  - intros M. destruct (B (proj2 (Eq _ _) M)) as (t & st & E). exists t, st. split; auto. intros m' c' M'. rewrite <- E.
    symmetry. apply D; apply Eq; auto.
Qed.
Print Assumptions C43_memory_guard.
Example C43_holds_somewhere :
  contractible Ok cnet /\ good_scheme cnet cord [j_] /\
  (3 * 16 * 22369622 > 1 * 1024 * 1024 * 1024)%Z /\ (3 * 16 * 22369621 <= 1 * 1024 * 1024 * 1024)%Z.
Proof.
  split; [by_build|]. split; [apply schemeb_ok; vm_compute; reflexivity|]. split; vm_compute; [reflexivity|discriminate].
Qed.
