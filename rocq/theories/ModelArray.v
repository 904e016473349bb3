(** * Model of the array operations the code relies on
    numpy.ndarray, numpy.einsum, numpy.moveaxis + indexing, numpy.transpose, and the
    pairwise evaluation of an opt_einsum expression along an explicit path.
    numpy and opt_einsum are external: the definitions below are their documented
    meaning in exact arithmetic, restricted to the calls in
    acqdp/tensor_network/contractor.py and contraction.py. *)
From Verif Require Import Base Scalar NetSpec.
Set Implicit Arguments.
Open Scope nat_scope.

Section Array.
  Variable S : scalar.

  (** numpy.ndarray: a shape and the entries.  Entries outside the shape are
      meaningless; equality of arrays is [nd_eq]. *)
  Record nd : Type := ND { nd_shape : list nat; nd_at : list nat -> S }.

  Fixpoint in_shape (sh idx : list nat) : bool :=
    match sh, idx with
    | [], [] => true
    | n :: r, i :: q => (i <? n) && in_shape r q
    | _, _ => false
    end.

  Definition nd_eq (a b : nd) : Prop :=
    nd_shape a = nd_shape b /\
    forall idx, in_shape (nd_shape a) idx = true -> nd_at a idx = nd_at b idx.

  (** scalar array, numpy.array(c) *)
  Definition nd_scalar (c : S) : nd := ND [] (fun _ => c).
  Definition nd_zeros (sh : list nat) : nd := ND sh (fun _ => k0).
  (** numpy.eye(n) *)
  Definition nd_eye (n : nat) : nd :=
    ND [n; n] (fun idx => match idx with [i; j] => kdelta (i =? j) | _ => k0 end).
  (** numpy.array(list of scalars) *)
  Definition nd_vec (l : list S) : nd :=
    ND [length l] (fun idx => match idx with [i] => nth i l k0 | _ => k0 end).
  Definition nd_add (a b : nd) : nd := ND (nd_shape a) (fun i => kadd (nd_at a i) (nd_at b i)).

  (** Re-insert fixed values: [weave n pos vals idx] is the full index of length [n]
      whose positions in [pos] carry [vals] and whose other positions carry [idx]
      in order. *)
  Fixpoint weave_from (k n : nat) (pos vals idx : list nat) : list nat :=
    match n with
    | 0 => []
    | Datatypes.S m =>
        if mem k pos
        then nth (index_of k pos) vals 0 :: weave_from (Datatypes.S k) m pos vals idx
        else match idx with
             | [] => 0 :: weave_from (Datatypes.S k) m pos vals []
             | i :: q => i :: weave_from (Datatypes.S k) m pos vals q
             end
    end.

  (** the entries of a list at the positions not in [pos] *)
  Fixpoint drop_from {X} (k : nat) (pos : list nat) (l : list X) : list X :=
    match l with
    | [] => []
    | x :: r => if mem k pos then drop_from (Datatypes.S k) pos r
                else x :: drop_from (Datatypes.S k) pos r
    end.

  (** numpy.moveaxis(a, pos, range(len(pos)))[tuple(vals)]
      (contractor.py:86-88): fix the axes [pos] to [vals].
      IndexError when a value or a position is out of range. *)
  Definition nd_fix (a : nd) (pos vals : list nat) : res nd :=
    if forallb (fun p => match nth_error (nd_shape a) (fst p) with
                         | Some n => snd p <? n
                         | None => false
                         end) (combine pos vals)
       && (length pos =? length vals)
    then Ok (ND (drop_from 0 pos (nd_shape a))
                (fun idx => nd_at a (weave_from 0 (length (nd_shape a)) pos vals idx)))
    else Err IndexError.

  (** numpy.transpose(a, axes): axis k of the result is axis axes[k] of [a] *)
  Definition nd_transpose (a : nd) (axes : list nat) : nd :=
    ND (map (fun k => nth k (nd_shape a) 0) axes)
       (fun idx => nd_at a (map (fun i => nth (index_of i axes) idx 0) (seq 0 (length axes)))).

  Section Einsum.
    Context {A : Type} `{Eqb A}.

    Definition oper : Type := (list A * nd)%type.

    Definition oper_term (p : oper) : term S (A := A) := Term (fst p) (nd_at (snd p)).

    (** label sizes read off the operands *)
    Definition sizes (ops : list oper) : list (A * nat) :=
      concat (map (fun p => combine (fst p) (nd_shape (snd p))) ops).
    Definition size_of (l : list (A * nat)) (a : A) : nat :=
      match get a l with Some n => n | None => 0 end.
    Definition consistent (l : list (A * nat)) : bool :=
      forallb (fun p => size_of l (fst p) =? snd p) l.
    Definition ranks_ok (ops : list oper) : bool :=
      forallb (fun p => length (fst p) =? length (nd_shape (snd p))) ops.
    Definition dom_of (size : A -> nat) (l : list A) : list (A * list nat) :=
      map (fun a => (a, seq 0 (size a))) l.

    (** numpy.einsum(subscripts, *ops): ValueError unless ranks match, equal labels have equal
        sizes (numpy also broadcasts size-1 axes: not modelled), and the output
        labels are distinct labels of the operands. *)
    Definition np_einsum (ops : list oper) (rhs : list A) : res nd :=
      let sz := sizes ops in
      if ranks_ok ops && consistent sz && nodupb rhs && forallb (fun a => mem a (keys sz)) rhs
      then Ok (ND (map (size_of sz) rhs)
                  (net_value (dom_of (size_of sz) (dedup (keys sz))) (map oper_term ops) rhs))
      else Err ValueError.

    (** remove the operands at two positions, larger position first *)
    Definition pop2 (i j : nat) (ops : list oper) : option (oper * oper * list oper) :=
      if i =? j then None
      else match nth_error ops i, nth_error ops j with
           | Some a, Some b => Some (a, b, del_nth (Nat.min i j) (del_nth (Nat.max i j) ops))
           | _, _ => None
           end.

    (** opt_einsum.contract_expression(subscripts, *shapes, optimize=path)( *ops ):
        the pairs of the path are contracted one after the other, the result is appended; the
        labels kept are those that occur in a remaining operand or in the output
        (acqdp/utility/opt_einsum_helpers.pyx:123-132 is the project's own copy of that rule);
        the last step produces the requested output labels.  A path that does not end with one
        operand is outside the model (RuntimeError). *)
    Definition kept_labels (a b : oper) (rest : list oper) (rhs : list A) : list A :=
      filter (fun x => mem x rhs || existsb (fun p => mem x (fst p)) rest)
             (dedup (fst a ++ fst b)).

    Fixpoint exec_path (path : list (nat * nat)) (ops : list oper) (rhs : list A) : res nd :=
      match path with
      | [] => match ops with [(_, d)] => Ok d | _ => Err RuntimeError end
      | (i, j) :: rest =>
          match pop2 i j ops with
          | None => Err IndexError
          | Some (a, b, others) =>
              let out := match rest with [] => rhs | _ => kept_labels a b others rhs end in
              do d <- np_einsum [a; b] out;
              exec_path rest (others ++ [(out, d)]) rhs
          end
      end.
  End Einsum.
End Array.

Arguments ND {S} nd_shape nd_at.
Arguments nd_shape {S} n.
Arguments nd_at {S} n _.
Arguments nd_eq {S} a b.
Arguments nd_fix {S} a pos vals.
Arguments nd_add {S} a b.
Arguments nd_transpose {S} a axes.
Arguments nd_scalar {S} c.
Arguments nd_vec {S} l.
Arguments np_einsum {S A _} ops rhs.
Arguments exec_path {S A _} path ops rhs.
Arguments oper_term {S A} p.
Arguments sizes {S A} ops.
Arguments ranks_ok {S A} ops.
Arguments pop2 {S A} i j ops.
Arguments kept_labels {S A _} a b rest rhs.
