(** A compiled task used over time: new data, new fixes, executions, in any order. *)
From Verif Require Import Base Scalar NetSpec Sums NetAlg ModelArray ArrayProofs ModelTN TNInv TNOps
  TNExact TNSpec TNDelta TNDeltaValue ModelContract ContractFix ContractNet ContractTemplate
  ContractExec ContractMerge ContractMain ContractFlat NameOrder ContractData.
Set Implicit Arguments.
Open Scope nat_scope.

Section Session.
  Context {S : scalar}.
  Notation anet := (tn (nd S)).
  Implicit Types (x e : name) (c : anet).

  (** the calls on a ContractionTask: contraction.py:238 set_data, 197 update_fix, 291 execute *)
  Inductive tcall : Type :=
  | TSetData (d : list (name * nd S))
  | TUpdateFix (m : anet)
  | TExecute.

  Fixpoint run_calls (l : list tcall) (t : task) (st : store S) : res (list (nd S)) :=
    match l with
    | [] => Ok []
    | TSetData d :: r => run_calls r t (set_data d st)
    | TUpdateFix m :: r => do p <- update_fix (fix_attr m) t st; run_calls r (fst p) (snd p)
    | TExecute :: r => do p <- execute t st; do rs <- run_calls r t (snd p); Ok (fst p :: rs)
    end.

  (** ** specification: the network the task stands for *)
  Definition fixes_of (m : anet) e : nat :=
    match get e (edges m) with
    | Some ed => match e_fix ed with Some (w :: _) => w | _ => 0 end
    | None => 0
    end.
  (** [c] with the fixed edges fixed as in [m] *)
  Definition set_fixes c (m : anet) : anet := refix (fixedb c) (fixes_of m) c.
  Definition after_call c (q : tcall) : anet :=
    match q with
    | TSetData d => with_arrays c d
    | TUpdateFix m => set_fixes c m
    | TExecute => c
    end.
  (** the network at each execution *)
  Fixpoint executed (l : list tcall) c : list anet :=
    match l with
    | [] => []
    | TExecute :: r => c :: executed r c
    | q :: r => executed r (after_call c q)
    end.
  (** the data have the right shapes; the network given to update_fix fixes the fixed edges to one
      value in range, and none of the sliced edges *)
  Definition call_ok (split : list name) c (q : tcall) : Prop :=
    match q with
    | TSetData d => fits_net c d
    | TUpdateFix m =>
        (forall e, fixedb c e = true ->
           exists ed w, get e (edges m) = Some ed /\ e_fix ed = Some [w] /\ w < size c e) /\
        (forall e, In e split -> exists ed, get e (edges m) = Some ed /\ e_fix ed = None)
    | TExecute => True
    end.
  Fixpoint calls_ok (split : list name) (l : list tcall) c : Prop :=
    match l with
    | [] => True
    | q :: r => call_ok split c q /\ calls_ok split r (after_call c q)
    end.
  (** the result of an execution is the value of the network *)
  Definition is_value c (r : nd S) : Prop :=
    map Some (nd_shape r) = map (edim c) (opens c) /\
    forall o, length o = length (opens c) -> nd_at r o = tn_value (@nd_at S) (prune c) o.

  Lemma ready_arrays c (d : list (name * nd S)) : ready Ok c -> fits_net c d -> ready Ok (with_arrays c d).
  Proof. apply with_arrays_ready. Qed.
  Lemma cells_arrays c (d : list (name * nd S)) (st : store S) : cells_ok c st -> cells_ok (with_arrays c d) st.
  Proof. auto. Qed.

  Lemma update_ok c split m path (st : store S) :
    ready Ok c -> good_slices c split -> call_ok split c (TUpdateFix m) ->
    ready Ok (set_fixes c m) /\ good_slices (set_fixes c m) split /\
    exists st', update_fix (fix_attr m) (the_task c split path) st = Ok (the_task (set_fixes c m) split path, st') /\
      data st' = data st /\ cells_ok (set_fixes c m) st'.
  Proof.
    intros R G [H1 H2].
    assert (IR : in_range (fixedb c) (fixes_of m) c).
    { intros e Fe _. destruct (H1 e Fe) as (ed & w & E1 & E2 & Lw). unfold fixes_of. rewrite E1, E2. auto. }
    split; [apply refix_ready; auto|]. split; [apply refix_slices; auto|].
    apply update_fix_refix with Ok; auto.
    - intros e ed Ge F. rewrite refix_get in Ge. destruct (get e (edges c)) as [ed0|] eqn:G0; [|discriminate].
      simpl in Ge. inversion Ge; subst ed. unfold rf_edge in *.
      assert (Fb : fixedb c e = true).
      { unfold fixedb. rewrite G0. destruct (fixedb c e), (e_fix ed0); simpl in F; congruence. }
      rewrite Fb in *. destruct (H1 e Fb) as (ed & w & E1 & E2 & Lw). unfold fix_attr, fixes_of. rewrite E1, E2. simpl.
      destruct (e_fix ed0); [auto|simpl in F; congruence].
    - intros e I. destruct (H2 e I) as (ed & E1 & E2). unfold fix_attr. rewrite E1, E2. auto.
  Qed.

  Lemma merge_ok_refix L v c split : ready Ok c -> ready Ok (refix L v c) -> good_slices c split -> merge_ok c split -> merge_ok (refix L v c) split.
  Proof.
    intros R R' G [H|H]; [left; exact H|right].
    rewrite singles_dlen in *; [|intros e vs I; apply (fd1_single R) in I as (w & -> & _); eauto
                               |intros e vs I; apply (fd1_single R') in I as (w & -> & _); eauto].
    rewrite refix_fd2. auto.
  Qed.

  Theorem session split path calls : forall c (st : store S),
    ready Ok c -> good_slices c split -> path_ok c path -> merge_ok c split ->
    comparable (keys (nodes c)) \/ str_distinct (keys (nodes c)) ->
    ready_state Ok c split st -> calls_ok split calls c ->
    exists rs, run_calls calls (the_task c split path) st = Ok rs /\
      Forall2 is_value (executed calls c) rs.
  Proof.
    induction calls as [|[d|m|] r IH]; intros c st R G PO MO Cmp Rs Ck.
    - exists []. simpl. auto.
    - destruct Ck as [Cd Cr]. cbn [run_calls executed after_call].
      rewrite <- (with_arrays_task path R Cd G). apply IH; auto.
      + apply ready_arrays; auto.
      + apply with_arrays_slices; auto.
      + unfold path_ok in *. destruct path as [p|]; auto. simpl. rewrite map_length. auto.
      + rewrite with_arrays_keys. auto.
      + apply set_data_ready with Ok; auto. apply (gd_cells Rs).
    - destruct Ck as [Cd Cr]. cbn [run_calls executed after_call].
      destruct (update_ok path st R G Cd) as (R' & G' & st' & E & D & C). rewrite E. cbn [bind fst snd].
      apply IH; auto.
      + apply merge_ok_refix; auto.
      + constructor; auto; [|simpl; discriminate]. cbn [data set_pre]. rewrite D.
        destruct (gd_data Rs) as [D1 D2]. split; [exact D1|]. intros x v I. apply D2. exact I.
    - destruct Ck as [_ Cr]. cbn [run_calls executed after_call].
      destruct (execute_ready_state path R G PO Rs MO) as (a & st' & E & Rs' & Sh & V). rewrite E. cbn [bind fst snd].
      destruct (IH c st' R G PO MO Cmp Rs' Cr) as (rs & E2 & F2). rewrite E2. cbn [bind]. exists (a :: rs).
      split; auto. constructor; auto. split.
      + rewrite Sh, map_map. apply map_ext_in. intros e I. symmetry. apply (att_dim R). apply (rd_open R e I).
      + intros o Lo. apply V; auto. intros t b Q idx _. inversion Q; auto.
  Qed.
End Session.
