(** * What add_idle_noise should do, qubit by qubit *)
From Coq Require Import Reals.
From Verif Require Import Base Scalar NetSpec ModelArray ModelTN ModelVal ModelContract CircSpec ModelCircuit Complex ModelGates ModelQec ModelIdle.
Set Implicit Arguments.

(** the life of a qubit: the operations on it in order of time, each with what it is *)
Definition life (kind : op CK -> kinds) (q : name) (l : circ (op CK)) : list (Z * kinds) :=
  map (fun p => (g_time (snd p), kind (g_op (snd p)))) (filter (fun p => mem q (g_qubits (snd p))) l).
(** with a given start, a qubit is alive from then on: as if something harmless had happened to it then *)
Definition born (start : option Z) : list (Z * kinds) := match start with Some s => [(s, Kinds false false false false)] | None => [] end.
(** the echo of a qubit after a stretch of its life: when its last ND measurement was, and when the echo began.
    An echo begins at a noisy Hadamard gate after an ND measurement and ends, forgetting the measurement, at the next one *)
Inductive echo : list (Z * kinds) -> option Z -> option Z -> Prop :=
| echo_new : echo [] None None
| echo_other l t k m s : echo l m s -> k_noisyh k = false -> echo (l ++ [(t, k)]) (if k_nd k then Some t else m) s
| echo_never l t k s : echo l None s -> k_noisyh k = true -> k_nd k = false -> echo (l ++ [(t, k)]) None s
| echo_begin l t k m m' : echo l m None -> k_noisyh k = true -> (if k_nd k then Some t else m) = Some m' -> echo (l ++ [(t, k)]) (Some m') (Some t)
| echo_end l t k m m' s : echo l m (Some s) -> k_noisyh k = true -> (if k_nd k then Some t else m) = Some m' -> echo (l ++ [(t, k)]) None None.
(** a gap: two operations next to each other in the life of a qubit, the first of which does not destroy it and the second of which does not prepare it,
    with time between them; [m], [s] are the measurement and the start of the echo that is under way *)
Definition gap (l : list (Z * kinds)) (t0 t : Z) (m s : option Z) : Prop :=
  exists a k0 k b m', l = a ++ (t0, k0) :: (t, k) :: b /\ k_meas k0 = false /\ k_state k = false /\ (t0 < t)%Z /\
    echo (a ++ [(t0, k0)]) m' s /\ m = (if k_nd k then Some t else m').
(** the times that an idle gate is told: its two ends, counted from the start of the echo, and the time from the measurement to the start *)
Definition echo_times (unit : R) (t0 t : Z) (m s : option Z) : option times :=
  match m, s with
  | Some m, Some s => Some (Times (IZR (t0 - s) * unit) (IZR (t - s) * unit) (IZR (s - m) * unit))
  | _, _ => None
  end.
(** the gate that fills the gap: it lasts as long as the gap, sits in its middle, and knows the echo *)
Definition filler (unit : R) (p : qparams) (q : name) (t0 t : Z) (m s : option Z) : name * gate (op CK) :=
  let mid := ((t0 + t) / 2)%Z in
  (NT [NI mid; NT [q]], Gate mid [q] (IdleGate (IZR (t - t0) * unit) p (echo_times unit t0 t m s))).
(** the wait of a qubit for the end: its last operation does not destroy it *)
Definition tail_gap (l : list (Z * kinds)) (t0 e : Z) : Prop := exists a k0, l = a ++ [(t0, k0)] /\ k_meas k0 = false /\ (t0 < e)%Z.
