(** Model of contract() on every kind of tensor-valued object: a tensor, a sum, a view, a network whose
    nodes hold any of these. *)
From Verif Require Import Base Scalar NetSpec ModelArray ModelTN TNSpec ModelContract ModelVal ModelNest.
Set Implicit Arguments.
Open Scope nat_scope.

Section Deep.
  Context {S : scalar}.
  Notation tval := (tval S).
  Notation net := (tn tval).
  (** the order in which Python iterates over a set (see ModelNest) *)
  Variable ord : list name -> list name.
  (** compiler.py:31 memory, in GiB *)
  Variable memory : Z.
  (** tensor_network.py:75-100 find_order: the scheme found for the network, after _expand_and_delta
      (order_finder.py:38, 76, 113).  Simplification: any function of that network; scheme.cost.t,
      scheme.order and scheme.slices. *)
  Variable find : net -> Z * order * list name.

  (** tensor_network.py:704-705 _expand_and_delta *)
  Definition expand_and_delta (fuel : nat) (n : net) : res (net * unit) :=
    run_net (expand ord fuel None ;; complete_delta) (copy_tn n).

  (** sum(res) in tensor_sum.py:185: the built-in starts from 0, 0 + a is a.  Simplification: arrays of
      different shapes raise ValueError (numpy would broadcast some of them). *)
  Fixpoint sum_from (a : nd S) (l : list (nd S)) : res (nd S) :=
    match l with
    | [] => Ok a
    | b :: r => if eqb (nd_shape a) (nd_shape b) then sum_from (nd_add a b) r else Err ValueError
    end.
  Definition py_sum (l : list (nd S)) : res (nd S) :=
    match l with [] => Ok (nd_scalar k0) | a :: r => sum_from a r end.

  (** [fuel] bounds the depth of the calls.
      tensor.py:102-106 (Simplification: a tensor without data returns None in the code, on which the next
      numpy operation raises TypeError; here it raises at once); tensor_sum.py:176-185; tensor_view.py:106-107
      (the function of a view acts entry by entry, see ModelVal); tensor_network.py:44-73 with compile
      (compiler.py:36-56: it expands and completes the network again, and calls contract() on what its nodes
      hold) and execute.  Simplification: the keyword arguments are those of the constructor of the compiler and
      the order finder in all the calls. *)
  Fixpoint contract_val (fuel : nat) (v : tval) : res (nd S) :=
    match fuel with
    | O => Err OutOfFuel
    | Datatypes.S fuel =>
        match v with
        | VTensor (Some d) => Ok d
        | VTensor None => Err TypeError
        | VSum l => do rs <- mapM (fun p => contract_val fuel (snd p)) l; py_sum rs
        | VView f w => do a <- contract_val fuel w; Ok (ND (nd_shape a) (fun i => f (nd_at a i)))
        | VNet n =>
            do p <- expand_and_delta fuel n;
            let '(cost, o, split) := find (fst p) in
            do q <- compile (contract_val fuel) memory cost (fst p) o split;
            do r <- execute (fst q) (snd q);
            Ok (fst r)
        end
    end.
End Deep.
