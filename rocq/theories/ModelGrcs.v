(** * Model of examples/circuit_simulation.py: GRCS, which reads a circuit from a file

    The file is the list of its lines, each line the list of its words ([line.split()]).  int() and float() on words are the arguments [int_of] and
    [float_of].  Not modelled: simplify=True, and the main program, which fixes indices and measures running times. *)
From Coq Require Import Reals Ascii String.
From Verif Require Import Base Scalar NetSpec ModelArray ModelTN ModelVal ModelContract CircSpec ModelCircuit Complex ModelGates.
Set Implicit Arguments.
Local Open Scope K_scope.

(** str.lower() on ASCII *)
Definition lower_ascii (a : ascii) : ascii :=
  let k := nat_of_ascii a in if (65 <=? k)%nat && (k <=? 90)%nat then ascii_of_nat (k + 32) else a.
Fixpoint lower (s : string) : string :=
  match s with EmptyString => EmptyString | String a s => String (lower_ascii a) (lower s) end.

(** circuit_simulation.py:24-49 gate_table.  np.sqrt(1j) is [cis (PI / 4)], np.sqrt(-1j) is [cis (- (PI / 4))]. *)
Definition x_half : op CK :=
  Unitary 1 (qarr 2 [cr (1 / sqrt 2); (- ci) * cr (/ sqrt 2); (- ci) * cr (/ sqrt 2); cr (1 / sqrt 2)]) false.
Definition y_half : op CK :=
  Unitary 1 (qarr 2 [cr (1 / sqrt 2); cr (- (1) / sqrt 2); cr (1 / sqrt 2); cr (1 / sqrt 2)]) false.
Definition hz_half : op CK :=
  Unitary 1 (qarr 2 [cr (1 / sqrt 2); (- cis (PI / 4)) * cr (/ sqrt 2); cis (- (PI / 4)) * cr (/ sqrt 2); cr (1 / sqrt 2)]) false.
Definition t_gate : op CK := Diagonal 1 (qarr 1 [1; cis (PI / 4)]) false.
Definition is_gate : res (op CK) := op_or (Diagonal 2 (qarr 2 [1; ci; ci; 1]) false) SWAPGate.
Definition gate_table (w : string) : res (op CK) :=
  if String.eqb w "h" then Ok HGate
  else if String.eqb w "x_1_2" then Ok x_half
  else if String.eqb w "y_1_2" then Ok y_half
  else if String.eqb w "hz_1_2" then Ok hz_half
  else if String.eqb w "cz" then Ok CZGate
  else if String.eqb w "t" then Ok t_gate
  else if String.eqb w "is" then is_gate
  else Err KeyError.
(** circuit_simulation.py:51-61 size_table *)
Definition size_table (w : string) : res nat :=
  if String.eqb w "h" || String.eqb w "t" || String.eqb w "x_1_2" || String.eqb w "y_1_2" || String.eqb w "hz_1_2" || String.eqb w "rz" then Ok 1%nat
  else if String.eqb w "cz" || String.eqb w "is" || String.eqb w "fs" then Ok 2%nat
  else Err KeyError.
(** circuit_simulation.py:71-75 *)
Definition rz_gate (t : R) : op CK := Diagonal 1 (qarr 1 [1; cis t]) false.
(** circuit_simulation.py:77-92 *)
Definition fs_gate (t p : R) : op CK :=
  Unitary 2 (qarr 4 [1; 0; 0; 0;
                     0; cr (cos t); - (cr (sin t) * ci); 0;
                     0; - (cr (sin t) * ci); cr (cos t); 0;
                     0; 0; 0; cr (cos (- p)) + cr (sin (- p)) * ci]) false.

Section Read.
  Variable int_of : string -> option Z.
  Variable float_of : string -> option R.
  Definition to_int (w : string) : res Z := match int_of w with Some z => Ok z | None => Err ValueError end.
  Definition to_float (w : string) : res R := match float_of w with Some z => Ok z | None => Err ValueError end.
  Fixpoint to_ints (ws : list string) : res (list Z) :=
    match ws with [] => Ok [] | w :: r => do z <- to_int w; do l <- to_ints r; Ok (z :: l) end.

  (** circuit_simulation.py:63-92: one line of the file *)
  Definition grcs_line (words : list string) (c : circ (op CK)) : res (circ (op CK)) :=
    match words with
    | [] => Err IndexError
    | w0 :: r =>
        do layer <- to_int w0;
        match r with
        | [] => Err IndexError
        | w1 :: r =>
            let w := lower w1 in
            do size <- size_table w;
            do target <- to_ints (firstn size r);
            let qs := map NI target in
            match skipn size r with
            | [] => do g <- gate_table w; c_append g qs (Some layer) None c
            | [a] => do t <- to_float a; c_append (rz_gate t) qs (Some layer) None c
            | [a; b] => do t <- to_float a; do p <- to_float b; c_append (fs_gate t p) qs (Some layer) None c
            | _ => Ok c
            end
        end
    end.
  Fixpoint grcs_lines (lines : list (list string)) (c : circ (op CK)) : res (circ (op CK)) :=
    match lines with [] => Ok c | l :: r => do c <- grcs_line l c; grcs_lines r c end.
  (** circuit_simulation.py:20-23; [Z.testbit] is (in_state >> k) & 1, for negative numbers too *)
  Fixpoint grcs_init (s : Z) (n : nat) (qubits : list nat) (c : circ (op CK)) : res (circ (op CK)) :=
    match qubits with
    | [] => Ok c
    | q :: r => do c <- c_append (OState (Z.testbit s (Z.of_nat (n - q - 1)))) [NI (Z.of_nat q)] (Some (-1)%Z) None c; grcs_init s n r c
    end.
  (** circuit_simulation.py:16-100 GRCS(f, in_state) for a file with the number [w] in its first line *)
  Definition grcs (w : string) (lines : list (list string)) (in_state : option Z) : res (circ (op CK)) :=
    do n <- to_int w;
    let n := Z.to_nat n in
    do c <- match in_state with Some s => grcs_init s n (seq 0 n) [] | None => Ok [] end;
    grcs_lines lines c.
End Read.
