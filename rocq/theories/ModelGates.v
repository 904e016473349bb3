(** * The named gates and channels of the package *)
From Coq Require Import Reals.
From Verif Require Import Base Scalar NetSpec ModelArray ModelTN ModelVal ModelOps OpsSpec ModelContract CircSpec ModelCircuit Complex.
Set Implicit Arguments.
Local Open Scope K_scope.

(** np.reshape(np.array(data), [2] * k): the numbers of the literal in row-major order.  np.sqrt, np.cos, np.sin are Coq's
    functions on the reals, np.exp(1j x) is [cis x]; numbers are exact. *)
Fixpoint flat_index (acc : nat) (x : list nat) : nat :=
  match x with [] => acc | b :: x => flat_index (2 * acc + b) x end.
Definition qarr (k : nat) (l : list CK) : tval CK :=
  VTensor (Some (ND (S := CK) (repeat 2%nat k) (fun x => nth (flat_index 0 x) l 0))).

(** circuit.py:466-483 Unitary, :374-394 PureState, :397-417 PureMeas, :570-594 Diagonal, :323-345 Channel, :301-320
    Measurement.  The constructors' checks are [mk_pure], [mk_ctrl], [mk_imm] (ModelCircuit). *)
Definition Unitary (n : nat) (d : tval CK) (sa : bool) : op CK := OPure sa (repeat (RW [LI; LO]) n) d.
Definition PureState (n : nat) (d : tval CK) : op CK := OPure false (repeat (RW [LO]) n) d.
Definition PureMeas (n : nat) (d : tval CK) : op CK := OPure false (repeat (RW [LI]) n) d.
Definition Diagonal (n : nat) (d : tval CK) (sa : bool) : op CK := OCtrl sa (repeat RC n) d.
Definition Channel (n : nat) (d : tval CK) : op CK := OImm (repeat (RW [LI; LO]) n) d.
Definition Measurement (n : nat) (d : tval CK) : op CK := OImm (repeat (RW [LI]) n) d.

(** tensor_network.py:28-42 TensorNetwork(open_edges=es, bond_dim=2) *)
Definition open_net (es : list name) : tval CK :=
  VNet (fst ((foreach (fun e => let! _ := add_edge e (Some 2%nat) in ret tt) es ;;
              modify (fun n => with_opens n (opens n ++ es))) (@empty_tn (tval CK)))).

(** circuit.py:597-598 *)
Definition XGate : op CK := Unitary 1 (qarr 2 [0; 1; 1; 0]) true.
(** circuit.py:600-601 *)
Definition YGate : op CK := Unitary 1 (qarr 2 [0; ci; - ci; 0]) true.
(** circuit.py:603-604 *)
Definition ZGate : op CK := Diagonal 1 (qarr 1 [1; - (1)]) true.
(** circuit.py:606-607 *)
Definition HGate : op CK := Unitary 1 (qarr 2 (map (kmul (cr (sqrt (1 / 2)))) [1; 1; 1; - (1)])) true.
(** circuit.py:609-610 *)
Definition TGate : op CK := Diagonal 1 (qarr 1 [1; (1 + ci) * cr (sqrt (1 / 2))]) false.
(** circuit.py:612-613 *)
Definition SGate : op CK := Diagonal 1 (qarr 1 [1; ci]) false.
(** circuit.py:615-623 *)
Definition TraceOp : op CK := Measurement 1 (open_net [NI 0; NI 0]).
(** circuit.py:626-629 *)
Definition IGate : op CK := Unitary 1 (open_net [NI 0; NI 0]) true.
(** circuit.py:632-635 *)
Definition SWAPGate : op CK := Unitary 2 (open_net [NI 0; NI 1; NI 1; NI 0]) true.
(** circuit.py:637-638 *)
Definition CZGate : op CK := Diagonal 2 (qarr 2 [1; 1; 1; - (1)]) true.
(** circuit.py:640-643 *)
Definition XHalfGate : op CK :=
  Unitary 1 (qarr 2 (map (fun x => x * cr (1 / 2)) [1 + ci; 1 + - ci; 1 + - ci; 1 + ci])) false.
(** circuit.py:645-648 *)
Definition YHalfGate : op CK :=
  Unitary 1 (qarr 2 (map (fun x => x * cr (1 / 2)) [1 + ci; - (1) + - ci; 1 + ci; 1 + ci])) false.
(** circuit.py:650-653 *)
Definition CNOTGate : op CK := OCtrl true [RC; RW [LI; LO]] (qarr 3 [1; 0; 0; 1; 0; 1; 1; 0]).
(** circuit.py:664-668, 681-685.  (ZeroState, OneState, ZeroMeas, OneMeas are [OState] and [OMeas] of ModelCircuit.) *)
Definition PlusState : op CK := PureState 1 (qarr 1 [cr (1 / sqrt 2); cr (1 / sqrt 2)]).
Definition MinusState : op CK := PureState 1 (qarr 1 [cr (1 / sqrt 2); cr (- (1) / sqrt 2)]).
Definition PlusMeas : op CK := PureMeas 1 (qarr 1 [cr (1 / sqrt 2); cr (1 / sqrt 2)]).
Definition MinusMeas : op CK := PureMeas 1 (qarr 1 [cr (1 / sqrt 2); cr (- (1) / sqrt 2)]).
(** circuit.py:690-695 *)
Definition NDCompMeas : op CK := Channel 1 (open_net [NI 0; NI 0; NI 0; NI 0]).

(** circuit.py:703-726 XRotation; :725-726 its adjoint is XRotation(-angle) *)
Definition XRotation (t : R) : op CK :=
  Unitary 1 (qarr 2 [cr (cos t); ci * cr (sin t); ci * cr (sin t); cr (cos t)]) false.
(** circuit.py:729-752 ZRotation; its adjoint is ZRotation(-angle) *)
Definition ZRotation (t : R) : op CK := Diagonal 1 (qarr 1 [cis t; cis (- t)]) false.
(** circuit.py:1157-1166; :1120-1140 the checks of SuperPosition are left out (they hold for these components) *)
Definition XXRotation (t : R) : res (op CK) :=
  do a <- op_mul IGate IGate;
  do b <- op_mul XGate XGate;
  Ok (OSuper [(cr (cos t), a); (cr (sin t) * ci, b)]).
(** circuit.py:1169-1179 *)
Definition ZZRotation (t : R) : op CK := Diagonal 2 (qarr 2 [cis t; cis (- t); cis (- t); cis t]) false.

(** ** noise.py *)

(** noise.py:5-27; the defaults are px = 0.25, py = px, pz = px *)
Definition Depolarization (px : R) (py pz : option R) : op CK :=
  let y := match py with Some y => y | None => px end in
  let z := match pz with Some z => z | None => px end in
  Channel 1 (qarr 4 (map cr
    [1 - px - y; 0; 0; 1 - 2 * z - px - y;
     0; px + y; px - y; 0;
     0; px - y; px + y; 0;
     1 - px - y - 2 * z; 0; 0; 1 - px - y]%R)).
(** noise.py:30-37 *)
Definition Dephasing (pz : R) : op CK := Depolarization 0 (Some 0%R) (Some pz).
(** noise.py:40-47 *)
Definition AmplitudeDampling (p : R) : op CK :=
  Channel 1 (qarr 4 (map cr
    [1; 0; 0; sqrt (1 - p);
     0; p; 0; 0;
     0; 0; 0; 0;
     sqrt (1 - p); 0; 0; 1 - p]%R)).

(** ** Kraus operators *)

(** a numpy array: shape, and the numbers in row-major order, of real or complex type *)
Inductive array : Type :=
| RealArray (sh : list nat) (l : list R)
| ComplexArray (sh : list nat) (l : list CK).
Definition ar_shape (a : array) : list nat := match a with RealArray sh _ | ComplexArray sh _ => sh end.
(** circuit.py:239-269 operation_from_kraus.  The sum starts with an array of float64, so that adding a product of complex
    type in place is an error (numpy raises UFuncTypeError, a TypeError). *)
Fixpoint kraus_sum (lin lout : nat) (l : list array) (acc : list nat -> CK) : res (list nat -> CK) :=
  match l with
  | [] => Ok acc
  | a :: l =>
      if negb (eqb (ar_shape a) (repeat 2%nat (lin + lout))) && negb (eqb (ar_shape a) [2 ^ lout; 2 ^ lin])%nat then Err ValueError
      else match a with
           | ComplexArray _ _ => Err TypeError
           | RealArray _ d =>
               let at_ x := cr (nth (flat_index 0 x) d 0%R) in
               kraus_sum lin lout l
                 (fun x => acc x + at_ (firstn (lin + lout) x) * kconj (at_ (skipn (lin + lout) x)))
           end
  end.
Definition operation_from_kraus (sh : list role) (kraus : list array) : res (op CK) :=
  if existsb (fun r => match r with RW [] => true | _ => false end) sh then Err IndexError else (* i[0] of the empty string *)
  let lin := count is_in sh in
  let lout := count is_out sh in
  do f <- kraus_sum lin lout kraus (fun _ => 0);
  mk_imm sh (VTensor (Some (ND (S := CK) (repeat 2%nat (2 * (lin + lout))) f))).
