(** * Specification of circuit files

    Only definitions.  A line of the file is [layer word targets... parameters...].  The state of n qubits is a function of n bits, qubit 0 first; a gate
    with matrix A on the qubits [ts] multiplies the state by A on these places. *)
From Coq Require Import Reals Ascii String.
From Verif Require Import Base Scalar NetSpec ModelArray MatSpec Complex GateSpec.
Set Implicit Arguments.
Local Open Scope K_scope.

(** (X + Y) / sqrt 2 *)
Definition pauli_w : mat CK := fun o i => cr (/ sqrt 2) * (pauli_x o i + pauli_y o i).
(** |01> to i |10>, |10> to i |01> *)
Definition iswap : mat CK := fun o i => (if eqb i [0; 1]%nat || eqb i [1; 0]%nat then ci else 1) * mswap o i.
(** fSim(theta, phi) *)
Definition fsim (t p : R) : mat CK := fun o i =>
  if eqb i [1; 1]%nat then cis (- p) * mone o i
  else if eqb i [0; 0]%nat then mone o i
  else cr (cos t) * mone o i + (- (ci * cr (sin t))) * mswap o i.

(** the gates: word, parameters, number of qubits, matrix *)
Inductive gate_word : string -> list R -> nat -> mat CK -> Prop :=
| gw_h : gate_word "h" [] 1 hadamard
| gw_x : gate_word "x_1_2" [] 1 (mexp (- (PI / 4)) pauli_x)
| gw_y : gate_word "y_1_2" [] 1 (mexp (- (PI / 4)) pauli_y)
| gw_w : gate_word "hz_1_2" [] 1 (mexp (- (PI / 4)) pauli_w)
| gw_t : gate_word "t" [] 1 (phase (PI / 4))
| gw_rz t : gate_word "rz" [t] 1 (phase t)
| gw_cz : gate_word "cz" [] 2 (mctrl true pauli_z)
| gw_is : gate_word "is" [] 2 iswap
| gw_fs t p : gate_word "fs" [t; p] 2 (fsim t p).

(** words are read without regard to case *)
Definition upper_of (a b : ascii) : Prop := exists k, (65 <= k <= 90)%nat /\ a = ascii_of_nat k /\ b = ascii_of_nat (k + 32).
Fixpoint same_word (a b : string) : Prop :=
  match a, b with
  | EmptyString, EmptyString => True
  | String x a, String y b => (x = y \/ upper_of x y) /\ same_word a b
  | _, _ => False
  end.

(** an instruction: time, qubits, matrix *)
Record instr : Type := Instr { i_layer : Z; i_targets : list nat; i_mat : mat CK }.
Definition reads (int_of : string -> option Z) (float_of : string -> option R) (words : list string) (x : instr) : Prop :=
  exists w0 w1 targets params w k ps,
    words = w0 :: w1 :: targets ++ params /\ int_of w0 = Some (i_layer x) /\ same_word w1 w /\ gate_word w ps k (i_mat x) /\
    Forall2 (fun s q => int_of s = Some (Z.of_nat q)) targets (i_targets x) /\ List.length targets = k /\
    Forall2 (fun s r => float_of s = Some r) params ps.

(** the bits of [x] on the places [ts]; [x] with the bits [b] on the places [ts] *)
Definition pick (x ts : list nat) : list nat := map (fun t => nth t x 0%nat) ts.
Definition put (x : list nat) (ts b : list nat) : list nat :=
  map (fun j => match get j (combine ts b) with Some v => v | None => nth j x 0%nat end) (seq 0 (List.length x)).
Definition vec : Type := list nat -> CK.
Definition apply (x : instr) (psi : vec) : vec := fun o =>
  sumf (fun b => i_mat x (pick o (i_targets x)) b * psi (put o (i_targets x) b)) (words2 (List.length (i_targets x))).
(** the number [s] in binary on [n] bits, most significant bit first *)
Definition binary (s : Z) (n : nat) : list nat := map (fun j => if Z.testbit s (Z.of_nat (n - 1 - j)) then 1%nat else 0%nat) (seq 0 n).
Definition start (s : Z) (n : nat) : vec := fun o => kdelta (eqb o (binary s n)).
(** the instructions, the first one first *)
Definition run_all (l : list instr) (psi : vec) : vec := fold_left (fun psi x => apply x psi) l psi.
(** instructions on the qubits 0, ..., n-1, at times 0, 1, ...; those of one time on different qubits *)
Definition placed (n : nat) (xs : list instr) : Prop :=
  Forall (fun x => NoDup (i_targets x) /\ Forall (fun t => t < n)%nat (i_targets x) /\ (0 <= i_layer x)%Z) xs /\
  ForallOrdPairs (fun x y => i_layer x = i_layer y -> forall t, In t (i_targets x) -> ~ In t (i_targets y)) xs.
