(** * C62: examples/circuit_simulation.py reads a GRCS file into the circuit it describes

    [grcs] (ModelGrcs.v) is GRCS(f, in_state); the meaning of a file is in GrcsSpec.v; [finder] is the default order finder (C51). *)
From Coq Require Import Reals Lra Lia Ascii String Sorting.Permutation Sorting.Sorted.
From Verif Require Import Base Scalar NetSpec Sums NetAlg ModelArray ModelTN TNInv TNValue ModelVal ModelOps OpsSpec ModelContract ModelNest NestSpec NameOrder CircSpec CircSum CircOrder ModelCircuit CircSem
  CircShape CircWire CircCtrl CircOp CircMain CircBuild CircUse DensSpec CircDens CircDensOp CircPure MatSpec MatProofs NoiseSpec NoiseAdd ModelDeep DeepSpec OrderSpec
  ModelOrder OrderProofs OrderNet DeepFind Complex GateSpec ModelGates GateProofs Props_Order Props_Deep CoreSpec Props_CircContract ModelGhz GhzProofs ModelGrcs GrcsSpec GrcsLine GrcsProofs.
Set Implicit Arguments.
Open Scope nat_scope.

(** A file for n qubits, whose lines read as the instructions [xs] ([reads]) on the qubits 0, ..., n-1, those of one layer on different qubits
    ([placed]); an initial state s. For every order [l'] of the instructions by layer: the circuit is built, and contracting its tensor returns an
    array with n axes of dimension 2 that holds the state obtained from |s> by the instructions [l'], one after the other. *)
Theorem C62_grcs (ord : list name -> list name) (memory : Z) (sp : ostep -> opath) (cost : tn (tval CK) -> Z)
    (int_of : string -> option Z) (float_of : string -> option R) (w : string) (lines : list (list string)) (s : Z) (n : nat) (xs l' : list instr) :
  (forall l, Permutation (ord l) l) -> good_paths sp -> (forall n, (cost n * 48 <= memory * 2 ^ 30)%Z) ->
  int_of w = Some (Z.of_nat n) -> Forall2 (reads int_of float_of) lines xs -> placed n xs ->
  Permutation xs l' -> StronglySorted (fun x y => (i_layer x <= i_layer y)%Z) l' ->
  exists c v k a, grcs int_of float_of w lines (Some s) = Ok c /\ op_shape (OCirc c) = Ok (repeat (RW [LO]) n) /\
    tensor_pure (OCirc c) = Ok v /\ (forall fuel, k <= fuel -> contract_val ord memory (finder sp cost) fuel v = Ok a) /\
    nd_shape a = repeat 2 n /\
    forall o, bits n o -> nd_at a o = run_all l' (start s n) o.
Proof.
  intros Po Gpa Mem Hn Rd Pl Pm So. destruct (lines_pairs Rd) as (P & Ex & Gp & Hl). subst xs.
  destruct (Permutation_map_inv _ _ (Permutation_sym Pm)) as (P' & -> & Pm').
  assert (So' : StronglySorted (fun p q => (i_layer (fst p) <= i_layer (fst q))%Z) P').
  { clear -So. induction P' as [|p l IH]; [constructor|]. cbn [map] in So. inversion So as [|? ? S1 F]; subst. constructor; auto. rewrite Forall_map in F. exact F. }
  pose proof (@file_shape s n P Gp Pl P' Pm' So') as E.
  pose proof (@file_wf s n P Gp Pl) as W. pose proof (@file_plain s n P Gp Pl) as Pp.
  pose proof (@file_pure s n P Gp Pl P' Pm' So') as Pu.
  destruct (@C59_pure CK ord memory sp cost _ _ Po Gpa Mem W Pp Pu E) as (v & k & a & Ev & Ca & Sh & Va).
  exists (file_circ s n P), v, k, a. split.
  { unfold grcs, to_int. rewrite Hn. cbn [bind]. rewrite Nat2Z.id. pose proof (@file_keys s n P Gp Pl) as Nk.
    rewrite init_ok. 2:{ unfold file_circ, keys in Nk. rewrite map_app in Nk. apply NoDup_app_iff in Nk. apply Nk. }
    cbn [bind app]. rewrite Hl, put_all_ok; auto. apply Forall_forall. intros p I. destruct Pl as [F _]. rewrite Forall_forall in F. apply F. apply in_map; auto. }
  split; auto. split; auto. split; auto. cbn zeta in Sh, Va.
  assert (Co : count role_out (repeat (RW [LO]) n) = n) by (clear; induction n as [|n IH]; [reflexivity|]; unfold count in *; simpl in *; congruence).
  assert (Ci : count role_in (repeat (RW [LO]) n) = 0) by (clear; induction n as [|n IH]; [reflexivity|]; unfold count in *; simpl in *; congruence).
  rewrite Co, Ci, Nat.add_0_r in *. split; auto.
  intros o B. specialize (Va o [] B). rewrite app_nil_r in Va. rewrite Va by (split; auto). eapply file_amp; eauto.
Qed.
Print Assumptions C62_grcs.

(** Where the reader does not do what the file says. Of two lines with the same layer and the same qubits only the second counts: the file without
    the first line gives the same circuit. A line with three or more words after the qubits is skipped without an error. *)
Theorem C62_overwrites (int_of : string -> option Z) (float_of : string -> option R) (l1 l2 : list string) (x y : instr) (c : circ (op CK)) :
  reads int_of float_of l1 x -> reads int_of float_of l2 y -> i_layer x = i_layer y -> i_targets x = i_targets y -> NoDup (i_targets x) ->
  grcs_lines int_of float_of [l1; l2] c = grcs_lines int_of float_of [l2] c.
Proof.
  intros R1 R2 El Et N. destruct (line_ok R1) as (g1 & G1 & _ & H1). destruct (line_ok R2) as (g2 & G2 & _ & H2). cbn [grcs_lines]. rewrite H1.
  assert (A : forall g A d, good_gate (length (i_targets x)) g A -> c_append g (qnames (i_targets x)) (Some (i_layer x)) None d =
    Ok (set (NT [NI (i_layer x); NT (qnames (i_targets x))]) (Gate (i_layer x) (qnames (i_targets x)) g) d)).
  { intros g M d G. apply c_append_ok. split; [apply qnames_NoDup; auto|]. split; [rewrite (good_len G); unfold qnames; rewrite map_length; auto|reflexivity]. }
  rewrite (A _ _ c G1). cbn [bind]. rewrite !H2, <- El, <- Et. rewrite <- Et in G2. rewrite !(A _ _ _ G2). cbn [bind]. f_equal.
  generalize (NT [NI (i_layer x); NT (qnames (i_targets x))]). intros k. generalize (Gate (i_layer x) (qnames (i_targets x)) g1). intros u. generalize (Gate (i_layer x) (qnames (i_targets x)) g2). intros v.
  induction c as [|[k' w] r IH]; cbn [set].
  - rewrite eqb_refl. reflexivity.
  - destruct (eqb_spec k k') as [->|Ne]; cbn [set].
    + rewrite eqb_refl. reflexivity.
    + destruct (eqb_spec k k') as [E|_]; [contradiction|]. f_equal. apply IH.
Qed.
Print Assumptions C62_overwrites.
Theorem C62_skips (int_of : string -> option Z) (float_of : string -> option R) (w0 w1 : string) (targets more : list string) (z : Z) (ts : list Z) (c : circ (op CK)) :
  int_of w0 = Some z -> In w1 ["cz"; "is"; "fs"]%string -> List.length targets = 2 -> Forall2 (fun w t => int_of w = Some t) targets ts -> 3 <= List.length more ->
  grcs_line int_of float_of (w0 :: w1 :: targets ++ more) c = Ok c.
Proof.
  intros E0 Iw Lt Ft Lm. destruct targets as [|a [|b [|]]]; try discriminate. inversion Ft as [|? ta ? r Ea Fr]; subst. inversion Fr as [|? tb ? r' Eb Fr']; subst. inversion Fr'; subst.
  destruct more as [|m1 [|m2 [|m3 more]]]; try (simpl in Lm; lia). cbn [grcs_line app]. unfold to_int at 1. rewrite E0. cbn [bind].
  assert (Hs : size_table (lower w1) = Ok 2) by (destruct Iw as [<-|[<-|[<-|[]]]]; reflexivity). rewrite Hs. cbn [bind firstn skipn to_ints]. unfold to_int. rewrite Ea, Eb. reflexivity.
Qed.
Print Assumptions C62_skips.

(** three qubits, two layers; the words of the gates in both cases *)
Definition some_int (w : string) : option Z :=
  (if String.eqb w "0" then Some 0 else if String.eqb w "1" then Some 1 else if String.eqb w "2" then Some 2 else if String.eqb w "3" then Some 3 else None)%Z.
Definition some_float (w : string) : option R := if String.eqb w "0.5" then Some (1 / 2)%R else None.
Definition some_lines : list (list string) := [["0"; "h"; "0"]; ["1"; "CZ"; "0"; "1"]; ["0"; "x_1_2"; "1"]; ["1"; "rz"; "2"; "0.5"]]%string.
Definition some_instrs : list instr :=
  [Instr 0 [0] hadamard; Instr 1 [0; 1] (mctrl true pauli_z); Instr 0 [1] (mexp (- (PI / 4)) pauli_x); Instr 1 [2] (phase (1 / 2))].
Definition some_order : list instr :=
  [Instr 0 [0] hadamard; Instr 0 [1] (mexp (- (PI / 4)) pauli_x); Instr 1 [0; 1] (mctrl true pauli_z); Instr 1 [2] (phase (1 / 2))].
Example C62_somewhere : good_paths std_sp /\ some_int "3" = Some 3%Z /\ Forall2 (reads some_int some_float) some_lines some_instrs /\ placed 3 some_instrs /\
  Permutation some_instrs some_order /\ StronglySorted (fun x y => (i_layer x <= i_layer y)%Z) some_order /\ binary 6 3 = [1; 1; 0].
Proof.
  split; [apply std_good|]. split; [reflexivity|]. split; [|split; [|split; [|split; [|reflexivity]]]].
  - unfold some_lines, some_instrs. constructor; [|constructor; [|constructor; [|constructor; [|constructor]]]].
    + exists "0"%string, "h"%string, ["0"]%string, [], "h"%string, 1, []. split; [reflexivity|]. split; [reflexivity|]. split; [cbn; tauto|].
      split; [apply gw_h|]. split; [repeat constructor|]. split; [reflexivity|constructor].
    + exists "1"%string, "CZ"%string, ["0"; "1"]%string, [], "cz"%string, 2, []. split; [reflexivity|]. split; [reflexivity|]. split.
      { cbn [same_word]. split; [right; exists 67; repeat split; lia|]. split; [right; exists 90; repeat split; lia|exact I]. }
      split; [apply gw_cz|]. split; [repeat constructor|]. split; [reflexivity|constructor].
    + exists "0"%string, "x_1_2"%string, ["1"]%string, [], "x_1_2"%string, 1, []. split; [reflexivity|]. split; [reflexivity|]. split; [cbn; tauto|].
      split; [apply gw_x|]. split; [repeat constructor|]. split; [reflexivity|constructor].
    + exists "1"%string, "rz"%string, ["2"]%string, ["0.5"]%string, "rz"%string, 1, [(1 / 2)%R]. split; [reflexivity|]. split; [reflexivity|]. split; [cbn; tauto|].
      split; [apply gw_rz|]. split; [repeat constructor|]. split; [reflexivity|repeat constructor].
  - split.
    + repeat constructor; simpl; try lia; tauto.
    + repeat constructor; simpl; intros; try lia; try discriminate; intuition lia.
  - apply perm_skip, perm_swap.
  - repeat constructor; simpl; lia.
Qed.
(** a Hadamard gate and a T gate on qubit 0 in layer 0: the Hadamard gate is lost *)
Example C62_overwrites_somewhere : reads some_int some_float ["0"; "h"; "0"]%string (Instr 0 [0] hadamard) /\ reads some_int some_float ["0"; "t"; "0"]%string (Instr 0 [0] (phase (PI / 4))) /\
  NoDup [0] /\ some_int "2" = Some 2%Z /\ In "fs"%string ["cz"; "is"; "fs"]%string /\ Forall2 (fun w t => some_int w = Some t) ["0"; "1"]%string [0; 1]%Z.
Proof.
  split; [|split; [|split; [|split; [reflexivity|split; [simpl; auto|repeat constructor]]]]].
  - exists "0"%string, "h"%string, ["0"]%string, [], "h"%string, 1, []. split; [reflexivity|]. split; [reflexivity|]. split; [cbn; tauto|].
    split; [apply gw_h|]. split; [repeat constructor|]. split; [reflexivity|constructor].
  - exists "0"%string, "t"%string, ["0"]%string, [], "t"%string, 1, []. split; [reflexivity|]. split; [reflexivity|]. split; [cbn; tauto|].
    split; [apply gw_t|]. split; [repeat constructor|]. split; [reflexivity|constructor].
  - repeat constructor; simpl; tauto.
Qed.
