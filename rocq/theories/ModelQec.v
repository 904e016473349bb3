(** * Model of the operations of demo/QEC/noise_model.py

    Numbers are exact reals.  add_idle_noise, which places the idle gates, is in ModelIdle.v.  Not modelled: add_noisy_surface_code, which draws random angles and
    fixes one layout of gates. *)
From Coq Require Import Reals.
From Verif Require Import Base Scalar NetSpec ModelArray ModelTN ModelVal ModelContract CircSpec ModelCircuit Complex ModelGates.
Set Implicit Arguments.
Local Open Scope K_scope.

(** noise_model.py:5-18, the entries of params that the operations below read *)
Record qparams : Type := QParams {
  T_1_inv : R; T_phi_inv : R; p_axis : R; p_plane : R; alpha0 : R; kappa : R; chi : R }.
(** noise_model.py:73-78, the dictionary ts *)
Record times : Type := Times { t_start : R; t_end : R; t_Dt : R }.

(** noise_model.py:34-50 IdleGate.lamda *)
Definition lamda (p : qparams) (ts : times) : R :=
  (let two_chi_alpha_Dt := 2 * chi p * alpha0 p * exp (- kappa p * t_Dt ts) in
   let top := - exp (- kappa p * t_end ts) / (4 * chi p ^ 2 + kappa p ^ 2) * (kappa p * sin (2 * chi p * t_end ts) + 2 * chi p * cos (2 * chi p * t_end ts)) in
   let bot := - exp (- kappa p * t_start ts) / (4 * chi p ^ 2 + kappa p ^ 2) * (kappa p * sin (2 * chi p * t_start ts) + 2 * chi p * cos (2 * chi p * t_start ts)) in
   exp (- two_chi_alpha_Dt * (top - bot)))%R.
(** noise_model.py:24-32 IdleGate *)
Definition IdleGate (duration : R) (p : qparams) (ts : option times) : op CK :=
  (let p_1_ := exp (- duration * T_1_inv p) in
   let p_phi_ := exp (- duration * T_phi_inv p) in
   let p_phi_ := match ts with Some ts => p_phi_ * lamda p ts | None => p_phi_ end in
   let p_xy := sqrt (p_1_ * p_phi_) in
   Channel 1 (qarr 4 (map cr
     [1; 0; 0; p_xy;
      0; 1 - p_1_; 0; 0;
      0; 0; 0; 0;
      p_xy; 0; 0; p_1_])))%R.
(** noise_model.py:53-60 NoisyHGate, for the default qubit=0 *)
Definition NoisyHGate (p : option qparams) : res (op CK) :=
  match p with
  | None => Ok HGate
  | Some p =>
      do c <- c_append HGate [NI 0] None None [];
      do c <- c_append (Depolarization (p_axis p / 4) (Some (p_plane p / 2 - p_axis p / 4)%R) (Some (p_axis p / 4)%R)) [NI 0] None None c;
      Ok (OCirc c)
  end.
(** noise_model.py:109-115 the gate of add_CZ_rotations: without angles, with one angle per qubit, with one angle *)
Inductive cz_angle : Type := NoAngle | OfQubit (a : R) | OneAngle (a : R).
Definition cz_gate (a : cz_angle) : op CK :=
  match a with
  | NoAngle => CZGate
  | OfQubit a => Diagonal 2 (qarr 2 [1; 1; cis a; - cis (- a)]) false
  | OneAngle a => Diagonal 2 (qarr 2 [1; 1; 1; cis a]) false
  end.
