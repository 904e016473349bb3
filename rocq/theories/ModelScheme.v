(** * Model of ContractionCost and ContractionScheme (acqdp/tensor_network/contraction.py:7-95) *)
From Coq Require Import List Arith ZArith String Lia Bool.
From Verif Require Import Base OrderSpec.
Import ListNotations.
Set Implicit Arguments.

(** contraction.py:16-19.  Simplification: flops and sizes are integers, the number of sliced indices is not
    negative, as everywhere in the code. *)
Record ccost := CCost { k_s : Z; k_t : Z; k_k : nat }.
Definition no_cost : ccost := CCost 0 0 0.
(** s * 2**k *)
Definition total (a : ccost) : Z := (k_s a * 2 ^ Z.of_nat (k_k a))%Z.
(** contraction.py:21-22 *)
Definition cost_add (a b : ccost) : ccost := CCost (k_s a + k_s b) (Z.max (k_t a) (k_t b)) 0.
(** contraction.py:24-27: the new value of the left operand *)
Definition cost_iadd (a b : ccost) : ccost := CCost (k_s a + k_s b) (Z.max (k_t a) (k_t b)) (k_k a).
(** contraction.py:29-30 *)
Definition cost_eq (a b : ccost) : bool := Z.eqb (total a) (total b) && Z.eqb (k_t a) (k_t b).
(** contraction.py:32-33 *)
Definition cost_lt (a b : ccost) : bool := Z.ltb (total a) (total b).

(** contraction.py:50-60 *)
Record cscheme := CScheme { sc_order : gorder; sc_slices : list name; sc_cost : ccost }.

(** The values a JSON text stands for.  json.dump writes tuples and lists alike as arrays, None as null;
    json.load reads arrays as lists: the two functions together are taken to map a JSON value to itself. *)
Inductive json : Type :=
| JNull
| JInt (z : Z)
| JStr (s : string)
| JArr (l : list json)
| JObj (l : list (string * json)).

Fixpoint name_json (n : name) : json :=
  match n with
  | NN => JNull
  | NI z => JInt z
  | NS s => JStr s
  | NT l => JArr (map name_json l)
  end.
(** contraction.py:62-73 dump *)
Definition dump (s : cscheme) : json :=
  JObj [("contractions", JArr (map (fun st => JArr [JArr (map name_json (fst st)); name_json (snd st)]) (sc_order s)));
        ("slices", JArr (map name_json (sc_slices s)));
        ("cost", JArr [JInt (k_s (sc_cost s)); JInt (k_t (sc_cost s)); JInt (Z.of_nat (k_k (sc_cost s)))])]%string.

(** contraction.py:83-86 tuplize; an object stays a dict, which no name is: TypeError where it is used *)
Fixpoint tuplize (j : json) : res name :=
  match j with
  | JNull => Ok NN
  | JInt z => Ok (NI z)
  | JStr s => Ok (NS s)
  | JArr l => do q <- (fix go l := match l with [] => Ok [] | x :: r => do y <- tuplize x; do ys <- go r; Ok (y :: ys) end) l;
              Ok (NT q)
  | JObj _ => Err TypeError
  end.
Definition field (k : string) (j : json) : res json :=
  match j with
  | JObj l => match get k l with Some v => Ok v | None => Err KeyError end
  | _ => Err TypeError
  end.
(** contraction.py:88-91 one entry of 'contractions' unpacked as (l0, l1), l.  Simplification: a string of two
    characters in place of the array of operands also unpacks; dump writes none. *)
Definition load_step (j : json) : res ostep :=
  match j with
  | JArr [JArr [a; b]; c] => do x <- tuplize a; do y <- tuplize b; do z <- tuplize c; Ok ([x; y], z)
  | JArr [JArr _; _] => Err ValueError
  | JArr [_; _] => Err TypeError
  | JArr _ => Err ValueError
  | _ => Err TypeError
  end.
(** contraction.py:75-92 load *)
Definition load (j : json) : res cscheme :=
  do cs <- field "contractions" j;
  do order <- (match cs with JArr l => mapM load_step l | _ => Err TypeError end);
  do ss <- field "slices" j;
  do slices <- (match ss with JArr l => mapM tuplize l | _ => Err TypeError end);
  do c <- field "cost" j;
  match c with
  | JArr [JInt s; JInt t; JInt k] => Ok (CScheme order slices (CCost s t (Z.to_nat k)))
  | _ => Err TypeError
  end.
