(** * Model of add_CZ_rotations of demo/QEC/noise_model.py

    A qubit is the pair of its coordinates.  Numbers are exact reals. *)
From Coq Require Import Reals.
From Verif Require Import Base Scalar NetSpec ModelArray ModelTN ModelVal ModelContract CircSpec ModelCircuit Complex ModelGates ModelQec.
Set Implicit Arguments.

Definition coord : Type := (Z * Z)%type.
Definition coord_name (q : coord) : name := NT [NI (fst q); NI (snd q)].
(** noise_model.py:111-117: None, a dictionary, a number *)
Inductive cz_angles : Type := AnglesNone | AnglesOf (d : coord -> option R) | AnglesOne (a : R).
(** noise_model.py:112-118 the gate for the qubit [q1] *)
Definition cz_for (angles : cz_angles) (q1 : coord) : res (op CK) :=
  match angles with
  | AnglesNone => Ok (cz_gate NoAngle)
  | AnglesOf d => match d q1 with Some a => Ok (cz_gate (OfQubit a)) | None => Err KeyError end
  | AnglesOne a => Ok (cz_gate (OneAngle a))
  end.
(** noise_model.py:120 *)
Definition diagonal_to (q1 q2 : coord) : bool :=
  (Z.abs (fst q1 - fst q2) =? 1)%Z && (Z.abs (snd q1 - snd q2) =? 1)%Z.
(** noise_model.py:119-121 the loop over low_freq_group *)
Fixpoint cz_low (g : op CK) (q1 : coord) (low : list coord) (time : option Z) (c : circ (op CK)) : res (circ (op CK)) :=
  match low with
  | [] => Ok c
  | q2 :: r =>
      do c <- (if diagonal_to q1 q2 then c_append g [coord_name q1; coord_name q2] time None c else Ok c);
      cz_low g q1 r time c
  end.
(** noise_model.py:104-121 add_CZ_rotations *)
Fixpoint add_CZ_rotations (high low : list coord) (time : option Z) (angles : cz_angles) (c : circ (op CK)) : res (circ (op CK)) :=
  match high with
  | [] => Ok c
  | q1 :: r => do g <- cz_for angles q1; do c <- cz_low g q1 low time c; add_CZ_rotations r low time angles c
  end.
