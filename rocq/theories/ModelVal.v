(** Model of the tensor-valued objects: Tensor (tensor.py), TensorNetwork (tensor_network.py),
    TensorSum (tensor_sum.py) and TensorView (tensor_view.py), and their value. *)
From Verif Require Import Base Scalar NetSpec ModelArray ModelTN TNSpec.
Set Implicit Arguments.

Section Val.
  Variable S : scalar.

  (** tensor.py:31-44 [_data], None for an undetermined tensor; tensor_network.py:35-41;
      tensor_sum.py:14-22 terms_by_name; tensor_view.py:22-27 ref and func.
      Simplification: the function of a view acts entry by entry (numpy.conj does).
      dtype and identifier are not part of the value; where the code uses the identifier as a
      node name the caller of the model passes it. *)
  Inductive tval : Type :=
  | VTensor (d : option (nd S))
  | VNet (n : tn tval)
  | VSum (terms : list (name * tval))
  | VView (f : S -> S) (v : tval).

  (** tensor_sum.py:31-43 _update_shape; None is the ValueError *)
  Fixpoint zip_shape (curr tmp : list (option nat)) : option (list (option nat)) :=
    match curr, tmp with
    | [], [] => Some []
    | c :: r, t :: q =>
        match zip_shape r q with
        | None => None
        | Some l => match c, t with
                    | None, _ => Some (t :: l)
                    | Some a, Some b => if a =? b then Some (c :: l) else None
                    | Some _, None => Some (c :: l)
                    end
        end
    | _, _ => None
    end.
  Definition shape_t := option (list (option nat)).
  Definition update_shape (curr tmp : shape_t) : res shape_t :=
    match tmp, curr with
    | None, _ => Ok curr
    | Some t, None => Ok (Some t)
    | Some t, Some c => match zip_shape c t with Some l => Ok (Some l) | None => Err ValueError end
    end.
  Fixpoint fold_shape (l : list shape_t) (curr : shape_t) : res shape_t :=
    match l with
    | [] => Ok curr
    | t :: r => do c <- update_shape curr t; fold_shape r c
    end.

  (** the dimension of an edge, None when unknown *)
  Definition edge_dim {T} (n : tn T) (e : name) : option nat :=
    match get e (edges n) with Some ed => e_dim ed | None => None end.

  (** shape: tensor.py:46-62, tensor_network.py:138-141, tensor_sum.py:50-63, tensor_view.py:34-44.
      Simplification: a sum whose terms have conflicting shapes (ValueError in the code) has no
      shape here. *)
  Fixpoint tval_shape (v : tval) : shape_t :=
    match v with
    | VTensor None => None
    | VTensor (Some d) => Some (map Some (nd_shape d))
    | VNet n => Some (map (edge_dim n) (opens n))
    | VSum l => match fold_shape (map (fun p => tval_shape (snd p)) l) None with
                | Ok s => s
                | Err _ => None
                end
    | VView _ v => tval_shape v
    end.

  Instance tval_payload : Payload tval := {
    pshape := tval_shape;
    p_one := VTensor (Some (nd_scalar k1));
    p_eye d := VTensor (Some (nd_eye S d));
    p_diag bs := VTensor (Some (nd_vec (map kdelta bs)))
  }.

  (** The meaning of a tensor-valued object: the entries of its array. *)
  Fixpoint tval_value (v : tval) (o : list nat) : S :=
    match v with
    | VTensor None => k0
    | VTensor (Some d) => nd_at d o
    | VNet n => tn_value tval_value n o
    | VSum l => sumf (fun p => tval_value (snd p) o) l
    | VView f v => f (tval_value v o)
    end.
End Val.
Arguments VTensor {S} d.
Arguments VNet {S} n.
Arguments VSum {S} terms.
Arguments VView {S} f v.
#[global] Existing Instance tval_payload.
