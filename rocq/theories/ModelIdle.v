(** * Model of add_idle_noise of demo/QEC/noise_model.py

    Simplifications.  Times are integers, counted in steps of length [unit]; the code halves the sum of two times, so read a step as half of the finest
    one in use, and the times of the given circuit as even.  An operation of the model does not carry its name or its class: [kind] says what the code
    reads off them. *)
From Coq Require Import Reals.
From Verif Require Import Base Scalar NetSpec ModelArray ModelTN ModelVal ModelContract CircSpec ModelCircuit Complex ModelGates ModelQec.
Set Implicit Arguments.

(** noise_model.py:71, :75, :88, :92: what is asked of an operation: isinstance State, isinstance Measurement, the name 'ND', the name 'NoisyH' *)
Record kinds : Type := Kinds { k_state : bool; k_meas : bool; k_nd : bool; k_noisyh : bool }.
(** noise_model.py:64-66: the entries of one qubit in timing, time_last_meas and time_start *)
Record clock : Type := Clock { timing : option Z; time_last_meas : option Z; time_start : option Z }.
Section Idle.
  Variable kind : op CK -> kinds.
  Variable unit : R.
  Variable params : qparams.
  Definition real (z : Z) : R := (IZR z * unit)%R.

  (** noise_model.py:71-98: one qubit of one operation at time [t]; the idle gate, if any, with its time step, and the new entries *)
  Definition idle_qubit (t : Z) (k : kinds) (cl : clock) : res (option (op CK * Z) * clock) :=
    let last := if k_nd k then Some t else time_last_meas cl in
    do e <- match timing cl with
            | Some t0 =>
                if negb (k_state k) && (0 <? t - t0)%Z then
                  do ts <- match time_start cl with
                           | None => Ok None
                           | Some s => match last with
                                       | Some l => Ok (Some (Times (real (t0 - s)) (real (t - s)) (real (s - l))))
                                       | None => Err TypeError
                                       end
                           end;
                  Ok (Some (IdleGate (real (t - t0)) params ts, ((t0 + t) / 2)%Z))
                else Ok None
            | None => Ok None
            end;
    let now := if k_meas k then None else Some t in
    match k_noisyh k, last with
    | true, Some _ =>
        match time_start cl with
        | None => Ok (e, Clock now last (Some t))
        | Some _ => Ok (e, Clock now None None)
        end
    | _, _ => Ok (e, Clock now last (time_start cl))
    end.
  (** noise_model.py:70-98: the qubits of one operation *)
  Fixpoint idle_qubits (t : Z) (k : kinds) (qs : list name) (cls : list (name * clock)) (c : circ (op CK)) : res (list (name * clock) * circ (op CK)) :=
    match qs with
    | [] => Ok (cls, c)
    | q :: r =>
        match get q cls with
        | None => Err KeyError
        | Some cl =>
            do p <- idle_qubit t k cl;
            do c <- match fst p with Some (o, m) => c_append o [q] (Some m) None c | None => Ok c end;
            idle_qubits t k r (set q (snd p) cls) c
        end
    end.
  (** noise_model.py:67-98: operations_by_time is computed once, before the first append *)
  Fixpoint idle_gates (l : circ (op CK)) (cls : list (name * clock)) (c : circ (op CK)) : res (list (name * clock) * circ (op CK)) :=
    match l with
    | [] => Ok (cls, c)
    | (_, g) :: r =>
        do p <- idle_qubits (g_time g) (kind (g_op g)) (g_qubits g) cls c;
        idle_gates r (fst p) (snd p)
    end.
  (** noise_model.py:99-104: the idle gates up to [e] *)
  Fixpoint idle_end (e : Z) (cls : list (name * clock)) (c : circ (op CK)) : res (circ (op CK)) :=
    match cls with
    | [] => Ok c
    | (q, cl) :: r =>
        do c <- match timing cl with
                | Some t0 => if (t0 <? e)%Z then c_append (IdleGate (real (e - t0)) params None) [q] (Some ((t0 + e) / 2)%Z) None c else Ok c
                | None => Ok c
                end;
        idle_end e r c
    end.
  (** noise_model.py:63-104 add_idle_noise *)
  Definition add_idle_noise (start stop : option Z) (c : circ (op CK)) : res (circ (op CK)) :=
    do qs <- all_qubits c;
    do p <- idle_gates (in_order c) (map (fun q => (q, Clock start None None)) qs) c;
    match stop with Some e => idle_end e (fst p) (snd p) | None => Ok (snd p) end.
End Idle.
