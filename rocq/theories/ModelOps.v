(** Model of the operators on tensor-valued objects (acqdp/tensor_network/tensor_valued.py) and of
    TensorSum (acqdp/tensor_network/tensor_sum.py). *)
From Verif Require Import Base Scalar NetSpec ModelArray ModelTN TNSpec ModelVal OpsSpec.
Set Implicit Arguments.

Section Ops.
  Variable S : scalar.
  Notation tval := (tval S).

  (** An object with its identity: [fst] is the [identifier] (an integer), the node or term name the code
      falls back to. *)
  Definition obj : Type := (name * tval)%type.

  (** Run edits on a new network and return it: [tn = TensorNetwork(); ...; return tn]. *)
  Definition build {A} (m : M (T := tval) A) : res tval :=
    match m empty_tn with
    | (n, Ok _) => Ok (VNet n)
    | (_, Err e) => Err e
    end.

  (** tensor_valued.py:134-144 __mul__ (and __rmul__): both operands become nodes with the default edges
      range(len(shape)), and are opened. *)
  Definition v_mul (a b : obj) : res tval :=
    build (let! _ := add_node (fst a) None (snd a) true in add_node (fst b) None (snd b) true).

  (** c * a for a number c: add_node wraps the number, Tensor(c); [j] is the identifier of that tensor *)
  Definition v_scale (c : S) (j : name) (a : obj) : res tval :=
    v_mul a (j, VTensor (Some (nd_scalar c))).
  (** tensor_valued.py:159-161 __neg__ *)
  Definition v_neg (j : name) (a : obj) : res tval := v_scale (kopp k1) j a.

  (** tensor_valued.py:36-49 transpose.  IndexError for an axis that does not exist. *)
  Definition v_transpose (a : obj) (axes : list nat) : res tval :=
    build (let! _ := add_node (fst a) None (snd a) true in
           let! n := getst in
           let! os := lift (mapM (fun i => match nth_error (opens n) i with
                                           | Some e => Ok e
                                           | None => Err IndexError
                                           end) axes) in
           modify (fun n => with_opens n os)).

  (** ** TensorSum: tensor_sum.py *)

  (** terms_by_name, and _cached_shape: None when the attribute does not exist *)
  Record tsum : Type := TSum { ts_terms : list (name * tval); ts_cache : option shape_t }.
  Definition ts_empty : tsum := TSum [] None.

  (** :31-43 _update_shape, whose loop overwrites the list [curr]: the list left behind, and whether the
      loop ran to its end *)
  Fixpoint fill_shape (curr tmp : list (option nat)) : list (option nat) * bool :=
    match curr, tmp with
    | c :: r, t :: q =>
        match c, t with
        | Some a, Some b => if a =? b then let w := fill_shape r q in (c :: fst w, snd w) else (curr, false)
        | Some _, None => let w := fill_shape r q in (c :: fst w, snd w)
        | None, _ => let w := fill_shape r q in (t :: fst w, snd w)
        end
    | _, _ => (curr, true)
    end.
  Definition shape_upd (curr tmp : shape_t) : shape_t * res shape_t :=
    match tmp, curr with
    | None, _ => (curr, Ok curr)
    | Some t, None => (curr, Ok (Some t))
    | Some t, Some c =>
        if length c =? length t then
          let w := fill_shape c t in
          (Some (fst w), if snd w then Ok (Some (fst w)) else Err ValueError)
        else (curr, Err ValueError)
    end.
  Fixpoint shape_all (l : list shape_t) (curr : shape_t) : res shape_t :=
    match l with
    | [] => Ok curr
    | t :: r => do c <- snd (shape_upd curr t); shape_all r c
    end.
  (** :49-63 shape: the object afterwards and the shape *)
  Definition ts_shape (t : tsum) : tsum * res shape_t :=
    match ts_cache t with
    | Some c => (t, Ok c)
    | None =>
        match shape_all (map (fun p => tval_shape (snd p)) (ts_terms t)) None with
        | Ok c => (TSum (ts_terms t) (Some c), Ok c)
        | Err e => (t, Err e)
        end
    end.
  (** :97-122 add_term, with an explicit name *)
  Definition ts_add (k : name) (v : tval) (t : tsum) : tsum * res unit :=
    if has k (ts_terms t) then (t, Err KeyError)
    else
      match tval_shape v with
      | None => (TSum (ts_terms t ++ [(k, v)]) (ts_cache t), Ok tt)
      | Some sh =>
          match ts_shape t with
          | (t, Err e) => (t, Err e)
          | (t, Ok c) =>
              match shape_upd c (Some sh) with
              | (_, Ok c) => (TSum (ts_terms t ++ [(k, v)]) (Some c), Ok tt)
              | (c, Err e) => (TSum (ts_terms t) (Some c), Err e)
              end
          end
      end.
  (** :128-145 update_term, with a tensor-valued object *)
  Definition ts_update (k : name) (v : tval) (t : tsum) : tsum * res unit :=
    if has k (ts_terms t) then (TSum (set k v (ts_terms t)) None, Ok tt) else (t, Err KeyError).
  (** :147-156 remove_term *)
  Definition ts_remove (k : name) (t : tsum) : tsum * res tval :=
    match get k (ts_terms t) with
    | Some v => (TSum (del k (ts_terms t)) None, Ok v)
    | None => (t, Err KeyError)
    end.

  (** one request to a TensorSum, and a history of requests with the answers *)
  Definition sum_step (op : sum_op S) (t : tsum) : tsum * sum_out :=
    match op with
    | SAdd k v => match ts_add k v t with (t, Ok _) => (t, SDone) | (t, Err _) => (t, SFailed) end
    | SUpdate k v => match ts_update k v t with (t, Ok _) => (t, SDone) | (t, Err _) => (t, SFailed) end
    | SRemove k => match ts_remove k t with (t, Ok _) => (t, SDone) | (t, Err _) => (t, SFailed) end
    | SShape => match ts_shape t with (t, Ok sh) => (t, SIs sh) | (t, Err _) => (t, SFailed) end
    end.
  Fixpoint sum_run (ops : list (sum_op S)) (t : tsum) : tsum * list sum_out :=
    match ops with
    | [] => (t, [])
    | op :: r => let w := sum_step op t in let z := sum_run r (fst w) in (fst z, snd w :: snd z)
    end.

  (** tensor_valued.py:148-157 __add__: a TensorSum with the two operands *)
  Definition v_add (a b : obj) : res tval :=
    match ts_add (fst a) (snd a) ts_empty with
    | (_, Err e) => Err e
    | (t, Ok _) => match ts_add (fst b) (snd b) t with
                   | (_, Err e) => Err e
                   | (t, Ok _) => Ok (VSum (ts_terms t))
                   end
    end.
  (** tensor_valued.py:163-165 __sub__; [j] and [k] identify -1 and -other *)
  Definition v_sub (a b : obj) (j k : name) : res tval :=
    do m <- v_neg j b; v_add a (k, m).

  (** tensor_valued.py:6-33 conjugate.  TensorSum.copy (tensor_sum.py:186-190) adds the terms one by one and so
      checks their shapes; a node that never got its tensor is a KeyError. *)
  Fixpoint ts_copy (l : list (name * tval)) (t : tsum) : res tsum :=
    match l with
    | [] => Ok t
    | (k, v) :: r => match ts_add k v t with
                     | (t, Ok _) => ts_copy r t
                     | (_, Err e) => Err e
                     end
    end.
  Fixpoint v_conj (v : tval) : res tval :=
    match v with
    | VTensor None => Ok (VTensor None)
    | VTensor (Some d) => Ok (VTensor (Some (ND (nd_shape d) (fun i => kconj (nd_at d i)))))
    | VSum l =>
        do t <- ts_copy l ts_empty;
        do q <- (fix go l := match l with
                             | [] => Ok []
                             | (k, x) :: r => do y <- v_conj x; do w <- go r; Ok ((k, y) :: w)
                             end) l;
        Ok (VSum q)
    | VNet n =>
        do q <- (fix go (l : list (name * node tval)) :=
                   match l with
                   | [] => Ok []
                   | (k, Node legs mut o) :: r =>
                       match o with
                       | None => Err KeyError
                       | Some x => do y <- v_conj x; do w <- go r; Ok ((k, Node legs mut (Some y)) :: w)
                       end
                   end) (nodes n);
        Ok (VNet (TN q (edges n) (adj n) (opens n) 0))
    | VView f w => Ok (VView kconj (VView f w))
    end.

  (** tensor_valued.py:175-182 norm_squared, the number contracted (its real part is taken); tensor.py:83-86
      computes the same for a Tensor.  [j] identifies the conjugate. *)
  Definition v_norm_net (a : obj) (j : name) : res tval :=
    do c <- v_conj (snd a);
    build (let! _ := add_node (fst a) None (snd a) false in add_node j None c false).
End Ops.
