(** * Specification: the energy of the quantum approximate optimisation algorithm

    Only definitions.  A problem is a list of clauses; a clause is a tuple of variables with a real value for every
    assignment of bits to them.  The state of the algorithm with angles beta_1..beta_p, gamma_1..gamma_p is

      |psi> = e^{i beta_p B} e^{i gamma_p C} ... e^{i beta_1 B} e^{i gamma_1 C} |+...+>,

    where C is the diagonal operator of the cost and B the sum of the Pauli X of all variables; the energy is <psi|C|psi>. *)
From Coq Require Import Reals.
From Verif Require Import Base Scalar NetSpec Complex.
Set Implicit Arguments.
Open Scope K_scope.

Definition csp : Type := list (list Z * (list nat -> R)).
(** an assignment of a bit to every variable *)
Definition bits : Type := Z -> nat.

(** the variables of a problem *)
Definition variables (c : csp) : list Z := dedup (concat (map fst c)).
(** the cost of an assignment *)
Definition cost (c : csp) (x : bits) : R := fold_right (fun p k => (snd p (map x (fst p)) + k)%R) 0%R c.

(** sum over all assignments of bits to the variables [V] *)
Definition over (V : list Z) (f : bits -> CK) : CK := esum (map (fun q => (q, [0; 1]%nat)) V) f env0.

(** the matrix entries of e^{ibX} = cos b + i sin b X *)
Definition rotation (b : R) (i j : nat) : CK := if eqb i j then cr (cos b) else ci * cr (sin b).

(** e^{ibB} e^{igC} applied to a state *)
Definition layer (c : csp) (b g : R) (psi : bits -> CK) : bits -> CK := fun x =>
  over (variables c) (fun y => prodf (fun q => rotation b (x q) (y q)) (variables c) * (cis (g * cost c y) * psi y)).

(** the state after the layers [(beta_1, gamma_1); (beta_2, gamma_2); ...] *)
Definition plus_state (c : csp) : bits -> CK := fun _ => cr (/ sqrt (2 ^ length (variables c)))%R.
Definition qaoa_state (c : csp) (angles : list (R * R)) : bits -> CK :=
  fold_left (fun psi bg => layer c (fst bg) (snd bg) psi) angles (plus_state c).

(** <psi| C |psi> *)
Definition energy (c : csp) (angles : list (R * R)) : CK :=
  over (variables c) (fun x => kconj (qaoa_state c angles x) * (cr (cost c x) * qaoa_state c angles x)).

(** what checkinstance and a Python dictionary guarantee: the clauses are different *)
Definition valid_csp (c : csp) : Prop := NoDup (map fst c).
