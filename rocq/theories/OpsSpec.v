(** Specification helpers for the operators on tensors: all indices of a shape, reordered indices. *)
From Verif Require Import Base Scalar ModelArray ModelTN ModelVal.
Set Implicit Arguments.

(** every index of an array of shape [dims], in row-major order *)
Fixpoint indices (dims : list nat) : list (list nat) :=
  match dims with
  | [] => [[]]
  | d :: r => flat_map (fun i => map (cons i) (indices r)) (seq 0 d)
  end.

(** [o] read along [axes]: entry k is o[axes[k]] *)
Definition along (axes o : list nat) : list nat := map (fun a => nth a o 0) axes.

(** Complete objects: every node of every network, at any depth, has its tensor; the terms of a sum have distinct
    names and one shape, all of whose dimensions are known. *)
Inductive complete (S : scalar) : tval S -> Prop :=
| complete_tensor d : complete (VTensor d)
| complete_net n : (forall k nd, In (k, nd) (nodes n) -> exists x, n_val nd = Some x /\ complete x) -> complete (VNet n)
| complete_sum l dims : NoDup (keys l) ->
    (forall k x, In (k, x) l -> tval_shape x = Some (map Some dims) /\ complete x) -> complete (VSum l)
| complete_view f v : complete v -> complete (VView f v).

(** ** What a sum of terms should do, as a map from names to objects *)
Section SumSpec.
  Variable S : scalar.
  Notation tval := (tval S).
  Notation dict := (name -> option tval).

  (** requests to a TensorSum *)
  Inductive sum_op : Type :=
  | SAdd (k : name) (v : tval)
  | SUpdate (k : name) (v : tval)
  | SRemove (k : name)
  | SShape.
  (** what the caller sees *)
  Inductive sum_out : Type :=
  | SDone
  | SFailed
  | SIs (sh : shape_t).

  Definition put (d : dict) (k : name) (o : option tval) : dict := fun x => if eqb x k then o else d x.
  (** every term whose shape is known has shape [sh] *)
  Definition all_have (d : dict) (sh : shape_t) : Prop :=
    forall k v, d k = Some v -> tval_shape v = None \/ tval_shape v = sh.

  (** One request: [sum_spec d op out d'] says that on the terms [d] the request [op] answers [out] and leaves
      the terms [d'].
      - a new term is accepted when its name is free and its shape is that of the terms present;
      - an update needs a present name and does not look at shapes; a removal needs a present name;
      - the shape is the common shape of the terms whose shape is known, and an error if they disagree. *)
  Inductive sum_spec (d : dict) : sum_op -> sum_out -> dict -> Prop :=
  | spec_add k v : d k = None -> (tval_shape v = None \/ all_have d (tval_shape v)) ->
      sum_spec d (SAdd k v) SDone (put d k (Some v))
  | spec_add_no k v : d k <> None \/ (tval_shape v <> None /\ ~ all_have d (tval_shape v)) ->
      sum_spec d (SAdd k v) SFailed d
  | spec_upd k v : d k <> None -> sum_spec d (SUpdate k v) SDone (put d k (Some v))
  | spec_upd_no k v : d k = None -> sum_spec d (SUpdate k v) SFailed d
  | spec_rem k : d k <> None -> sum_spec d (SRemove k) SDone (put d k None)
  | spec_rem_no k : d k = None -> sum_spec d (SRemove k) SFailed d
  | spec_shape sh : all_have d sh -> (sh = None \/ exists k v, d k = Some v /\ tval_shape v = sh) ->
      sum_spec d SShape (SIs sh) d
  | spec_shape_no : (forall sh, ~ all_have d sh) -> sum_spec d SShape SFailed d.

  (** a history of requests, the latest last *)
  Inductive sum_history : list sum_op -> list sum_out -> dict -> Prop :=
  | hist_nil : sum_history [] [] (fun _ => None)
  | hist_snoc ops outs d op out d' :
      sum_history ops outs d -> sum_spec d op out d' -> sum_history (ops ++ [op]) (outs ++ [out]) d'.

  (** every dimension of the object is known, or nothing is known of its shape *)
  Definition settled (v : tval) : Prop := tval_shape v = None \/ exists dims, tval_shape v = Some (map Some dims).
  Definition op_settled (op : sum_op) : Prop :=
    match op with SAdd _ v | SUpdate _ v => settled v | _ => True end.
End SumSpec.
Arguments SAdd {S} k v.
Arguments SUpdate {S} k v.
Arguments SRemove {S} k.
Arguments SShape {S}.
