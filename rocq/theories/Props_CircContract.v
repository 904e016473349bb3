(** * C59: contract() of a circuit's tensor returns its entries

    [plain_op] (CoreSpec.v): the data of the operations are arrays or wirings, and no operation of a circuit is called "*" or "#"; [op_dens o] (DensSpec.v): the channel of
    an operation, for a circuit that of its operations in order of time; [op_amp o] (CircSem.v): the amplitudes of a pure operation; [finder] is the default order finder (C51), whose path optimiser and cost
    are parameters. *)
From Coq Require Import Reals Lra Lia String Sorting.Permutation Sorting.Sorted.
From Verif Require Import Base Scalar NetSpec Sums NetAlg ModelArray ModelTN TNInv TNValue ModelVal ModelOps OpsSpec ModelContract ModelNest NestSpec NameOrder CircSpec ModelCircuit CircSem
  CircShape CircWire CircCtrl CircOp CircMain CircBuild CircUse DensSpec CircDens CircDensOp CircPure MatSpec MatProofs NoiseSpec ModelDeep DeepSpec DeepCheck DeepProofs OrderSpec
  ModelOrder OrderProofs OrderNet DeepFind Complex GateSpec ModelGates GateProofs Props_Order Props_Deep Props_Gates Props_Noise CoreVal CoreSpec CoreOps CorePureOp CoreOp.
Set Implicit Arguments.
Open Scope nat_scope.

Lemma twos_map k l : twos k = Some (map Some l) -> l = repeat 2 k.
Proof.
  unfold twos. intros E. injection E as E. revert l E. induction k as [|k IH]; intros [|a l] E; try discriminate; auto.
  injection E as <- E. simpl. f_equal. auto.
Qed.

(** contract() of the density tensor of an operation or a circuit, nested to any depth, returns an array with bonds of dimension 2 for
    the outputs, the inputs and their copies, and its entries are those of the channel. *)
Theorem C59_density (S : scalar) (ord : list name -> list name) (memory : Z) (sp : ostep -> opath) (cost : tn (tval S) -> Z) (x : op S) sh :
  (forall l, Permutation (ord l) l) -> good_paths sp -> (forall n, (cost n * 48 <= memory * 2 ^ 30)%Z) ->
  op_wf x -> no_super x -> plain_op x -> op_shape x = Ok sh ->
  exists v k a, tensor_density x = Ok v /\ (forall fuel, k <= fuel -> contract_val ord memory (finder sp cost) fuel v = Ok a) /\
    let n := count role_out sh in
    let m := count role_in sh in
    nd_shape a = repeat 2 ((n + m) + (n + m)) /\
    forall o i o' i', bits n o -> bits m i -> bits n o' -> bits m i' -> nd_at a (o ++ i ++ o' ++ i') = op_dens x o i o' i'.
Proof.
  intros Po Gp Mem W Ns P Es. destruct (dens_ok W Ns Es) as (v & Ev & _ & Sv & Vv).
  destruct (dens_gv W Ns P Es Ev) as [G Nm]. destruct (gv_well G Nm) as [Wv Hv].
  destruct (@C51_default_finder S ord memory sp cost v Po Wv Gp Mem Hv) as (k & a & [A1 A2] & Ca).
  exists v, k, a. split; auto. split; auto. cbn zeta in *. rewrite Sv in A1. apply twos_map in A1. split; auto.
  intros o i o' i' Bo Bi Bo' Bi'. rewrite A2; [auto|]. rewrite A1. apply in_shape_bits. rewrite app_assoc. repeat (apply bits_app; auto).
Qed.
Print Assumptions C59_density.

(** contract() of the tensor of a pure operation or circuit, nested to any depth and with controlled circuits in it, returns an array with
    bonds of dimension 2 for the outputs and the inputs, and its entries are the amplitudes. *)
Theorem C59_pure (S : scalar) (ord : list name -> list name) (memory : Z) (sp : ostep -> opath) (cost : tn (tval S) -> Z) (x : op S) sh :
  (forall l, Permutation (ord l) l) -> good_paths sp -> (forall n, (cost n * 48 <= memory * 2 ^ 30)%Z) ->
  op_wf x -> plain_op x -> op_pure x = Ok true -> op_shape x = Ok sh ->
  exists v k a, tensor_pure x = Ok v /\ (forall fuel, k <= fuel -> contract_val ord memory (finder sp cost) fuel v = Ok a) /\
    let n := count role_out sh in
    let m := count role_in sh in
    nd_shape a = repeat 2 (n + m) /\
    forall o i, bits n o -> bits m i -> nd_at a (o ++ i) = op_amp x o i.
Proof.
  intros Po Gp Mem W P Pu Es. destruct (proj1 (conv_ok W) Pu) as (s & E' & T). rewrite Es in E'. injection E' as <-.
  destruct T as (v & Ev & _ & Sv & Vv). destruct (proj1 (conv_gv W P Pu Es) v Ev) as [G Nm]. destruct (gv_well G Nm) as [Wv Hv].
  destruct (@C51_default_finder S ord memory sp cost v Po Wv Gp Mem Hv) as (k & a & [A1 A2] & Ca).
  exists v, k, a. split; auto. split; auto. cbn zeta in *. rewrite Sv in A1. apply twos_map in A1. split; auto.
  intros o i Bo Bi. rewrite A2; [auto|]. rewrite A1. apply in_shape_bits. apply bits_app; auto.
Qed.
Print Assumptions C59_pure.

(** The states, gates and channels of the package, and all circuits of them, nested to any depth, have such data. *)
Inductive names_ok : op CK -> Prop :=
| names_circ c : (forall k g, In (k, g) c -> gate_name k /\ names_ok (g_op g)) -> names_ok (OCirc c)
| names_other o : (forall c, o <> OCirc c) -> names_ok o.
Lemma wiring_plain (ins : list bool) es : (let n := match open_net es with VNet n => n | _ => @empty_tn (tval CK) end in
  open_net es = VNet n /\ regularb n = true /\ nodes n = [] /\ forallb (fun p => match e_fix (snd p) with None => true | _ => false end) (edges n) = true /\
  forallb (fun e => match e with NI _ => existsb (fun p => fst p && eqb (snd p) e) (combine ins (opens n)) | _ => false end) (keys (edges n)) = true) ->
  plain_data ins (open_net es).
Proof.
  cbn zeta. intros (E & R & N & F & A). rewrite E. split; [apply regularb_ok; auto|]. split; auto. split.
  - intros e. unfold is_fixed. destruct (get e _) as [ed|] eqn:Ge; auto. apply get_In in Ge. rewrite forallb_forall in F. specialize (F _ Ge). simpl in F.
    destruct (e_fix ed); [discriminate|auto].
  - intros e I. rewrite forallb_forall in A. specialize (A e I). destruct e; try discriminate. split; [eauto|].
    apply existsb_exists in A as ([b e'] & I' & A). apply andb_true_iff in A as [A1 A2]. simpl in A1, A2. subst b.
    apply (proj1 (eqb_eq _ _)) in A2. subst e'. auto.
Qed.
Lemma physical_plain (x : op CK) : physical x -> names_ok x -> plain_op x.
Proof.
  induction 1 as [x n Nm Ns|b| | |px py pz H|p H|p H| | |sh ks ds x Rc Re F T E|c sh N G _ IH Es]; intros Nok.
  - destruct Nm; try (constructor; try exact I; apply wiring_plain; vm_compute; auto; fail).
    exfalso. unfold XXRotation in *. destruct (op_mul IGate IGate); [|discriminate]. destruct (op_mul XGate XGate); [|discriminate]. cbn [bind] in *.
    match goal with E : Ok _ = Ok _ |- _ => injection E as <- end. inversion Ns.
  - constructor.
  - constructor. exact I.
  - constructor. exact I.
  - constructor. exact I.
  - constructor. exact I.
  - constructor. exact I.
  - constructor. apply wiring_plain. vm_compute. auto.
  - constructor. apply wiring_plain. vm_compute. auto.
  - unfold operation_from_kraus in E. destruct (existsb _ _); [discriminate|]. destruct (kraus_sum _ _ _ _) as [f|]; [|discriminate]. cbn [bind] in E.
    unfold mk_imm in E. destruct (shape_is _ _); [|discriminate]. injection E as <-. constructor. exact I.
  - inversion Nok as [? Ho|? Ho]; [|exfalso; eapply Ho; reflexivity]. subst. constructor. intros k t qs a I. destruct (Ho _ _ I) as [Gn Na].
    split; auto. apply (IH _ _ I). exact Na.
Qed.
Theorem C59_package (x : op CK) : physical x -> names_ok x -> op_wf x /\ no_super x /\ plain_op x.
Proof. intros H N. destruct (physical_ok H) as (W & Ns & _). split; auto. split; auto. apply physical_plain; auto. Qed.
Print Assumptions C59_package.

(** A circuit with a nested circuit, noise, and a qubit that is discarded.  The names are the default ones and strings. *)
Definition c_bell : circ (op CK) :=
  [(NS "p", Gate 0 [NI 0] PlusState); (NT [NI 0; NT [NI 1]], Gate 0 [NI 1] (OState false)); (NS "n", Gate 1 [NI 0] (AmplitudeDampling (1 / 3)));
   (NS "c", Gate 2 [NI 0; NI 1] CNOTGate)].
Definition c_top : circ (op CK) :=
  [(NS "b", Gate 0 [NI 5; NI 6] (OCirc c_bell)); (NS "s", Gate 1 [NI 6; NI 7] SWAPGate); (NS "t", Gate 2 [NI 7] TraceOp)].
Lemma gate_name_s s : s <> "*"%string -> s <> "#"%string -> gate_name (NS s).
Proof. right. eauto. Qed.
Example C59_somewhere : physical (OCirc c_top) /\ names_ok (OCirc c_top) /\ op_shape (OCirc c_top) = Ok [RW [LO]; RW [LO]; RW [LI]] /\
  good_paths std_sp /\ (1 * 48 <= 1024 * 2 ^ 30)%Z.
Proof.
  split; [|split; [|split; [vm_compute; reflexivity|split; [exact std_good|vm_compute; discriminate]]]].
  - assert (Pb : physical (OCirc c_bell)).
    { eapply ph_circuit; [apply nodupb_NoDup; vm_compute; reflexivity| | |vm_compute; reflexivity].
      - intros k g I. simpl in I. repeat (destruct I as [I|I]; [inversion I; subst; split; [apply nodupb_NoDup; vm_compute; reflexivity|vm_compute; reflexivity]|]). contradiction.
      - intros k g I. simpl in I. destruct I as [I|[I|[I|[I|[]]]]]; inversion I; subst; cbn [g_op].
        + apply ph_plus. + apply ph_state. + apply ph_damping; lra. + eapply ph_gate; [apply named_CNOT|apply ns_ctrl]. }
    eapply ph_circuit; [apply nodupb_NoDup; vm_compute; reflexivity| | |vm_compute; reflexivity].
    + intros k g I. simpl in I. repeat (destruct I as [I|I]; [inversion I; subst; split; [apply nodupb_NoDup; vm_compute; reflexivity|vm_compute; reflexivity]|]). contradiction.
    + intros k g I. simpl in I. destruct I as [I|[I|[I|[]]]]; inversion I; subst; cbn [g_op]; auto.
      * eapply ph_gate; [apply named_SWAP|apply ns_pure]. * apply ph_discard.
  - apply names_circ. intros k g I. simpl in I. destruct I as [I|[I|[I|[]]]]; inversion I; subst; (split; [apply gate_name_s; discriminate|]); cbn [g_op];
      try (apply names_other; discriminate).
    apply names_circ. intros k g J. simpl in J. destruct J as [J|[J|[J|[J|[]]]]]; inversion J; subst; (split; [|apply names_other; discriminate]);
      try (apply gate_name_s; discriminate). left. eauto.
Qed.

(** A pure circuit: states, a controlled circuit of a Hadamard and a controlled NOT, and a measurement outcome. *)
Definition c_ent : circ (op CK) := [(NS "h", Gate 0 [NI 0] HGate); (NS "x", Gate 1 [NI 0; NI 1] CNOTGate)].
Definition c_pure : circ (op CK) :=
  [(NS "p", Gate 0 [NI 0] PlusState); (NS "z", Gate 0 [NI 1] (OState false)); (NT [NI 0; NT [NI 2]], Gate 0 [NI 2] (OState true));
   (NS "c", Gate 1 [NI 0; NI 1; NI 2] (OCCirc true c_ent)); (NS "m", Gate 2 [NI 1] (OMeas false))].
Example C59_pure_somewhere : op_wf (OCirc c_pure) /\ plain_op (OCirc c_pure) /\ op_pure (OCirc c_pure) = Ok true /\
  op_shape (OCirc c_pure) = Ok [RW [LO]; RW [LO; LI]; RW [LO]] /\ controlled true (OCirc c_ent) = Ok (OCCirc true c_ent).
Proof.
  assert (We : op_wf (OCirc c_ent)).
  { constructor; [apply nodupb_NoDup; vm_compute; reflexivity| |]; intros k g [E|[E|[]]]; inversion E; subst; cbn [g_op].
    - constructor; [constructor|reflexivity|reflexivity].
    - constructor; [constructor|reflexivity].
    - split; [apply nodupb_NoDup; vm_compute; reflexivity|reflexivity].
    - split; [apply nodupb_NoDup; vm_compute; reflexivity|reflexivity]. }
  split; [|split; [|split; [reflexivity|split; [vm_compute; reflexivity|reflexivity]]]].
  - constructor; [apply nodupb_NoDup; vm_compute; reflexivity| |].
    + intros k g [E|[E|[E|[E|[E|[]]]]]]; inversion E; subst; cbn [g_op]; try (constructor; [constructor|reflexivity|reflexivity]); try (constructor; fail).
      constructor; auto. apply ct_circ with (sh := [RW [LI; LO]; RW [LI; LO]]); [discriminate| |vm_compute; reflexivity|reflexivity|].
      * repeat constructor; unfold earlier; simpl; lia.
      * intros k g [J|[J|[]]]; inversion J; subst; constructor; reflexivity.
    + intros k g [E|[E|[E|[E|[E|[]]]]]]; inversion E; subst; split; try reflexivity; apply nodupb_NoDup; vm_compute; reflexivity.
  - constructor. intros k t qs a [E|[E|[E|[E|[E|[]]]]]]; inversion E; subst; (split; [solve [left; eauto|apply gate_name_s; discriminate]|]);
      try (constructor; exact I). constructor. constructor.
    intros k t qs a [J|[J|[]]]; inversion J; subst; (split; [apply gate_name_s; discriminate|]); constructor; exact I.
Qed.
