(** Model of Tensor and TensorSum as objects that share memory: tensor.py and tensor_sum.py.

    Arrays are buffers in a store; a Tensor object points to a buffer, or to a view of one made by
    fix_index (numpy.moveaxis(data, i, 0)[v] is a view, a number when the rank was one).  A TensorSum
    object holds references to its terms.  Not modelled: terms that are networks or views of tensors,
    dtype, the cached shape and the shape check of add_term (see ModelOps.v), broadcasting in +=. *)
From Verif Require Import Base Scalar ModelArray ModelVal.
Set Implicit Arguments.

Section Obj.
  Variable S : scalar.
  Definition oref := nat.

  (** tensor.py:20-32 _data: None, an array (buffer and the indices fixed so far, oldest first) or a
      numpy number *)
  Inductive data :=
  | DNone
  | DArr (a : nat) (fx : list (nat * nat))
  | DNum (c : S).
  Inductive obj :=
  | OTensor (d : data)
  | OSum (ts : list (name * oref)).
  Record store_ := St { bufs : list (nd S); objs : list obj }.
  Notation st := store_.

  (** the array without index [i], at value [v] *)
  Definition nd_pick (d : nd S) (p : nat * nat) : nd S :=
    ND (del_nth (fst p) (nd_shape d)) (fun idx => nd_at d (ins_nth (fst p) (snd p) idx)).
  Definition arr (s : st) (a : nat) (fx : list (nat * nat)) : option (nd S) :=
    option_map (fun b => fold_left nd_pick fx b) (nth_error (bufs s) a).
  Definition dread (s : st) (d : data) : option (option (nd S)) :=
    match d with
    | DNone => Some None
    | DArr a fx => option_map Some (arr s a fx)
    | DNum c => Some (Some (nd_scalar c))
    end.
  (** what an object looks like to its user: tensor.py:102-106 and tensor_sum.py:176-185 contract, one
      level of sums for every unit of [k] *)
  Definition view_terms (f : oref -> option (tval S)) : list (name * oref) -> option (list (name * tval S)) :=
    fix go l := match l with
                | [] => Some []
                | (x, q) :: r => match f q, go r with
                                 | Some v, Some vs => Some ((x, v) :: vs)
                                 | _, _ => None
                                 end
                end.
  Fixpoint view (k : nat) (s : st) (r : oref) : option (tval S) :=
    match k, nth_error (objs s) r with
    | Datatypes.S k, Some (OTensor d) => option_map VTensor (dread s d)
    | Datatypes.S k, Some (OSum ts) =>
        option_map VSum (view_terms (view k s) ts)
    | _, _ => None
    end.
  Definition new_obj (o : obj) (s : st) : st * oref := (St (bufs s) (objs s ++ [o]), length (objs s)).
  Definition put_obj (r : oref) (o : obj) (s : st) : st := St (bufs s) (set_nth r o (objs s)).
  Definition new_buf (b : nd S) (s : st) : st * nat := (St (bufs s ++ [b]) (objs s), length (bufs s)).

  (** tensor.py:16-32 Tensor(data) with an array nobody else holds *)
  Definition new_tensor (b : option (nd S)) (s : st) : st * oref :=
    match b with
    | None => new_obj (OTensor DNone) s
    | Some b => let '(s, a) := new_buf b s in new_obj (OTensor (DArr a [])) s
    end.
  (** tensor.py:112-114 and tensor_sum.py:187-191 copy *)
  Definition copy_ (r : oref) (s : st) : st * res oref :=
    match nth_error (objs s) r with
    | Some (OTensor (DNum c)) => let '(s, q) := new_tensor (Some (nd_scalar c)) s in (s, Ok q)
    | Some o => let '(s, q) := new_obj o s in (s, Ok q)
    | None => (s, Err KeyError)
    end.
  (** tensor.py:116-118 and tensor_sum.py:193-197 __deepcopy__; [k] bounds the depth *)
  Definition deep_terms (f : oref -> st -> st * res oref) : list (name * oref) -> st -> st * res (list (name * oref)) :=
    fix go l s := match l with
                  | [] => (s, Ok [])
                  | (x, q) :: r => match f q s with
                                   | (s, Ok q') => match go r s with
                                                   | (s, Ok r') => (s, Ok ((x, q') :: r'))
                                                   | (s, Err e) => (s, Err e)
                                                   end
                                   | (s, Err e) => (s, Err e)
                                   end
                  end.
  Fixpoint deep (k : nat) (r : oref) (s : st) : st * res oref :=
    match k, nth_error (objs s) r with
    | Datatypes.S k, Some (OTensor d) =>
        match dread s d with
        | Some b => let '(s, q) := new_tensor b s in (s, Ok q)
        | None => (s, Err KeyError)
        end
    | Datatypes.S k, Some (OSum ts) =>
        let '(s, ts') := deep_terms (deep k) ts s in
        match ts' with
        | Ok ts' => let '(s, q) := new_obj (OSum ts') s in (s, Ok q)
        | Err e => (s, Err e)
        end
    | _, _ => (s, Err RuntimeError)
    end.
  (** the index of the buffer entry [idx] in the view *)
  Fixpoint in_view (fx : list (nat * nat)) (idx : list nat) : option (list nat) :=
    match fx with
    | [] => Some idx
    | (i, v) :: r => match nth_error idx i with
                     | Some w => if w =? v then in_view r (del_nth i idx) else None
                     | None => None
                     end
    end.
  (** tensor.py:61-63 __iadd__: numpy adds in place *)
  Definition iadd (r : oref) (u : nd S) (s : st) : st * res unit :=
    match nth_error (objs s) r with
    | Some (OTensor (DArr a fx)) =>
        match nth_error (bufs s) a with
        | Some b =>
            if eqb (nd_shape (fold_left nd_pick fx b)) (nd_shape u) then
              (St (set_nth a (ND (nd_shape b) (fun idx => match in_view fx idx with
                                                          | Some o => kadd (nd_at b idx) (nd_at u o)
                                                          | None => nd_at b idx
                                                          end)) (bufs s)) (objs s), Ok tt)
            else (s, Err ValueError)
        | None => (s, Err KeyError)
        end
    | Some (OTensor (DNum c)) =>
        if eqb (nd_shape u) [] then (put_obj r (OTensor (DNum (kadd c (nd_at u [])))) s, Ok tt) else (s, Err ValueError)
    | Some (OTensor DNone) => (s, Err TypeError)
    | _ => (s, Err KeyError)
    end.
  (** tensor.py:89-100 fix_index: the object itself is changed and returned.
      tensor_sum.py:153-169 fix_index: a copy is returned, whose terms are fixed. *)
  Definition fix_terms := deep_terms.
  Fixpoint fix_ (k : nat) (r : oref) (i v : nat) (s : st) : st * res oref :=
    match k, nth_error (objs s) r with
    | Datatypes.S k, Some (OTensor DNone) => (s, Ok r)
    | Datatypes.S k, Some (OTensor (DNum c)) => (s, Err ValueError)
    | Datatypes.S k, Some (OTensor (DArr a fx)) =>
        match arr s a fx with
        | None => (s, Err KeyError)
        | Some b =>
            match nth_error (nd_shape b) i with
            | None => (s, Err ValueError)
            | Some d =>
                if v <? d then
                  (put_obj r (OTensor (if length (nd_shape b) =? 1 then DNum (nd_at b [v]) else DArr a (fx ++ [(i, v)]))) s, Ok r)
                else (s, Err IndexError)
            end
        end
    | Datatypes.S k, Some (OSum ts) =>
        let '(s, q) := new_obj (OSum ts) s in
        let '(s, e) := fix_terms (fun t => fix_ k t i v) ts s in
        match e with
        | Ok ts' => (put_obj q (OSum ts') s, Ok q)
        | Err e => (s, Err e)
        end
    | _, _ => (s, Err RuntimeError)
    end.
  (** tensor_sum.py:93-117 add_term, :123-140 update_term, :142-151 remove_term *)
  Definition add_term (r : oref) (x : name) (u : oref) (s : st) : st * res unit :=
    match nth_error (objs s) r with
    | Some (OSum ts) => if has x ts then (s, Err KeyError) else (put_obj r (OSum (ts ++ [(x, u)])) s, Ok tt)
    | _ => (s, Err KeyError)
    end.
  Definition update_term (r : oref) (x : name) (u : oref) (s : st) : st * res unit :=
    match nth_error (objs s) r with
    | Some (OSum ts) => if has x ts then (put_obj r (OSum (set x u ts)) s, Ok tt) else (s, Err KeyError)
    | _ => (s, Err KeyError)
    end.
  Definition remove_term (r : oref) (x : name) (s : st) : st * res unit :=
    match nth_error (objs s) r with
    | Some (OSum ts) => if has x ts then (put_obj r (OSum (del x ts)) s, Ok tt) else (s, Err KeyError)
    | _ => (s, Err KeyError)
    end.

  (** ** programs: statements over variables; exceptions are caught, a variable whose statement raised
      stays unset.  The term that remove_term returns is not kept. *)
  Inductive stmt :=
  | XTensor (b : option (nd S))
  | XSum
  | XCopy (i : nat)
  | XDeep (i : nat)
  | XAdd (i : nat) (x : name) (j : nat)
  | XUpdate (i : nat) (x : name) (j : nat)
  | XRemove (i : nat) (x : name)
  | XFix (i j v : nat)
  | XIadd (i : nat) (u : nd S).
  Definition env := list (option oref).
  Definition var (vs : env) (i : nat) : option oref := match nth_error vs i with Some (Some r) => Some r | _ => None end.
  Definition keep (vs : env) (p : st * res oref) : st * env :=
    (fst p, vs ++ [match snd p with Ok q => Some q | Err _ => None end]).
  (** [k] is Python's recursion limit *)
  Definition exec (k : nat) (p : st * env) (x : stmt) : st * env :=
    let '(s, vs) := p in
    match x with
    | XTensor b => let '(s, q) := new_tensor b s in (s, vs ++ [Some q])
    | XSum => let '(s, q) := new_obj (OSum []) s in (s, vs ++ [Some q])
    | XCopy i => match var vs i with Some r => keep vs (copy_ r s) | None => (s, vs ++ [None]) end
    | XDeep i => match var vs i with Some r => keep vs (deep k r s) | None => (s, vs ++ [None]) end
    | XFix i j v => match var vs i with Some r => keep vs (fix_ k r j v s) | None => (s, vs ++ [None]) end
    | XAdd i x j => match var vs i, var vs j with Some r, Some u => (fst (add_term r x u s), vs) | _, _ => (s, vs) end
    | XUpdate i x j => match var vs i, var vs j with Some r, Some u => (fst (update_term r x u s), vs) | _, _ => (s, vs) end
    | XRemove i x => match var vs i with Some r => (fst (remove_term r x s), vs) | None => (s, vs) end
    | XIadd i u => match var vs i with Some r => (fst (iadd r u s), vs) | None => (s, vs) end
    end.
  Definition exec_all (k : nat) (p : list stmt) (s : st) (vs : env) : st := fst (fold_left (exec k) p (s, vs)).
End Obj.
Arguments DNone {S}.
Arguments DArr {S} a fx.
Arguments DNum {S} c.
Arguments OTensor {S} d.
Arguments OSum {S} ts.
Arguments XSum {S}.
Arguments XCopy {S} i.
Arguments XDeep {S} i.
Arguments XAdd {S} i x j.
Arguments XUpdate {S} i x j.
Arguments XRemove {S} i x.
Arguments XFix {S} i j v.
