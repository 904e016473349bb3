(** Model of the compilation and execution of a contraction:
    acqdp/tensor_network/compiler.py (Compiler.compile, with do_patch=False, its default),
    acqdp/tensor_network/contraction.py (ContractionTask) and
    acqdp/tensor_network/contractor.py (Contractor.execute with the numpy engine).

    A compiled task refers to mutable one-element Python lists ("cells"): the input cells, the
    results of the commands, and the cells holding the value an edge is fixed to.  They are
    modelled by a store; a cell is named by the place in the compiler that creates it.
    Two subtasks obtained from one task share all cells, as in the code.

    Simplifications, valid for the whole file: the logarithm of the norm kept beside every array
    is not modelled (it is 0 when normalize=False, the default); dtype is not modelled; einsum
    labels are the edge names themselves (the code maps distinct names to distinct symbols,
    opt_einsum.get_symbol); the store left behind by an exception is not modelled.  The network
    is the one obtained after [_expand_and_delta] (compiler.py:45). *)
From Verif Require Import Base Scalar NetSpec ModelArray ModelTN.
Set Implicit Arguments.

(** array cells: compiler.py:59 (inputs), 136 (result of an 'f' command of the first or second
    call of _generate_template_fix), 162/169/182 (constants), 186 (output) *)
Inductive aloc : Type :=
| AIn (x : name)
| AFix (stage : nat) (x : name)
| AConst (x : name)
| AOut.

(** fix cells: compiler.py:147 (stage 2) and 153 (stage 1) *)
Definition cell : Type := (nat * name)%type.

#[global] Instance aloc_eqb : Eqb aloc.
Proof.
  refine {| eqb := fun a b => match a, b with
                              | AIn x, AIn y => eqb x y
                              | AFix s x, AFix t y => eqb s t && eqb x y
                              | AConst x, AConst y => eqb x y
                              | AOut, AOut => true
                              | _, _ => false
                              end |}.
  intros [x|s x|x|] [y|t y|y|]; try (constructor; congruence);
    try (destruct (eqb_spec x y); constructor; congruence).
  destruct (eqb_spec s t); destruct (eqb_spec x y); constructor; congruence.
Defined.

(** Python's str() of a name, used by sorted(..., key=str) (contraction.py:222).
    Simplification: quotes and backslashes inside a string are not escaped by repr. *)
Definition z_str (z : Z) : string :=
  match z with
  | Z0 => "0"%string
  | Zpos p => nat_str (Pos.to_nat p)
  | Zneg p => ("-" ++ nat_str (Pos.to_nat p))%string
  end.
Fixpoint name_repr (x : name) : string :=
  match x with
  | NN => "None"
  | NI z => z_str z
  | NS s => "'" ++ s ++ "'"
  | NT l => match l with
            | [] => "()"
            | [y] => "(" ++ name_repr y ++ ",)"
            | y :: r => "(" ++ name_repr y ++
                        (fix go r := match r with [] => ")" | z :: q => ", " ++ name_repr z ++ go q end) r
            end
  end%string.
Definition name_str (x : name) : string := match x with NS s => s | _ => name_repr x end.

(** a stable insertion sort by a "less than" that may raise *)
Fixpoint sort_ins (lt : name -> name -> res bool) (x : name) (l : list name) : res (list name) :=
  match l with
  | [] => Ok [x]
  | y :: r => do b <- lt x y; if b then Ok (x :: l) else do q <- sort_ins lt x r; Ok (y :: q)
  end.
Fixpoint sort_by (lt : name -> name -> res bool) (l acc : list name) : res (list name) :=
  match l with
  | [] => Ok acc
  | x :: r => do acc <- sort_ins lt x acc; sort_by lt r acc
  end.
(** contraction.py:219-226: sorted(l), or sorted(l, key=str) when that raises TypeError *)
Definition py_sorted (l : list name) : list name :=
  match sort_by name_lt l [] with
  | Ok r => r
  | Err _ => match sort_by (fun a b => Ok (String.ltb (name_str a) (name_str b))) l [] with
             | Ok r => r
             | Err _ => l
             end
  end.

Section Contract.
  Variable S : scalar.
  Notation nd := (nd S).

  (** the two kinds of commands: compiler.py:137 ('f') and 192 ('c'; the path of the opt_einsum
      expression of compiler.py:99-111, absent when the order is empty) *)
  Inductive cmd : Type :=
  | CmdF (src dst : aloc) (pos : list nat) (cells : list cell)
  | CmdC (lhs : list aloc) (dst : aloc) (legs : list (list name)) (rhs : list name)
         (path : option (list (nat * nat))).

  (** contraction.py:120-165.  [t_opens = None] in a subtask (contraction.py:280). *)
  Record task : Type := Task {
    t_cmds : list cmd;
    t_out : aloc;
    t_inputs : list (name * aloc);
    t_shape : list nat;
    t_fix : list ((name * list nat) * cell);
    t_opens : option (list name);
    t_sub : list name;
    t_cnt : nat;
    t_len : nat
  }.

  (** the mutable state a task works on: contents of the cells, the attributes [data] and
      [preprocess] *)
  Record store : Type := Store {
    arr : aloc -> option nd;
    fixc : cell -> nat;
    data : list (name * nd);
    pre : bool
  }.
  Definition set_arr (st : store) (l : aloc) (a : nd) : store :=
    Store (fun x => if eqb x l then Some a else arr st x) (fixc st) (data st) (pre st).
  Definition set_cell (st : store) (c : cell) (v : nat) : store :=
    Store (arr st) (fun x => if eqb x c then v else fixc st x) (data st) (pre st).
  Definition set_pre (st : store) (b : bool) : store := Store (arr st) (fixc st) (data st) b.
  Definition with_data (st : store) d : store := Store (arr st) (fixc st) d (pre st).

  (** length = product of the numbers of values, contraction.py:161-164 *)
  Definition fix_length (f : list ((name * list nat) * cell)) : nat :=
    fold_right (fun k n => length (snd (fst k)) * n) 1 f.

  (** ** Contractor._execute, contractor.py:65-122 *)

  (** reading a cell that is still [None] raises TypeError *)
  Definition read (st : store) (l : aloc) : res nd :=
    match arr st l with Some a => Ok a | None => Err TypeError end.
  Definition run_cmd (c : cmd) (st : store) : res store :=
    match c with
    | CmdF src dst pos cells =>
        do a <- read st src;
        do r <- nd_fix a pos (map (fixc st) cells);
        Ok (set_arr st dst r)
    | CmdC lhs dst legs rhs path =>
        do l <- mapM (read st) lhs;
        do r <- match path with
                | Some p => exec_path p (combine legs l) rhs
                | None => np_einsum (combine legs l) rhs
                end;
        Ok (set_arr st dst r)
    end.
  Fixpoint run_cmds (l : list cmd) (st : store) : res store :=
    match l with
    | [] => Ok st
    | c :: r => do st <- run_cmd c st; run_cmds r st
    end.
  (** _execute(task): all commands, then the content of the output cell *)
  Definition exec (t : task) (st : store) : res (nd * store) :=
    do st <- run_cmds (t_cmds t) st;
    do a <- read st (t_out t);
    Ok (a, st).

  (** ** ContractionTask *)

  (** contraction.py:218-236 _load_data: inputs and data are paired by position after sorting
      both key lists (the data are arrays: nested tasks are not modelled) *)
  Fixpoint load_pairs (inp : list (name * aloc)) (di dd : list name) (st : store) : res store :=
    match di, dd with
    | [], _ => Ok st
    | _ :: _, [] => Err IndexError
    | i :: ri, d :: rd =>
        match get i inp, get d (data st) with
        | Some l, Some a => load_pairs inp ri rd (set_arr st l a)
        | _, _ => Err KeyError
        end
    end.
  Definition load_data (t : task) (st : store) : res store :=
    do st <- load_pairs (t_inputs t) (py_sorted (keys (t_inputs t))) (py_sorted (keys (data st))) st;
    Ok (set_pre st false).

  (** contraction.py:238-246 set_data *)
  Definition set_data (d : list (name * nd)) (st : store) : store := with_data st d.

  (** contraction.py:197-216 update_fix.  [fx e] is the attribute 'fix_to' of edge [e] in the given
      network: None when the network has no such edge, Some None when the edge is not fixed. *)
  Fixpoint update_fix_dict (fx : name -> option (option (list nat)))
             (f : list ((name * list nat) * cell)) (st : store)
    : res (list ((name * list nat) * cell) * store) :=
    match f with
    | [] => Ok ([], st)
    | ((e, vs), c) :: r =>
        match fx e with
        | None => Err KeyError
        | Some None => do p <- update_fix_dict fx r st; Ok (((e, vs), c) :: fst p, snd p)
        | Some (Some []) => Err IndexError
        | Some (Some (v :: w)) =>
            do p <- update_fix_dict fx r (set_cell st c v);
            Ok (((e, v :: w), c) :: fst p, snd p)
        end
    end.
  Definition with_fix (t : task) f : task :=
    Task (t_cmds t) (t_out t) (t_inputs t) (t_shape t) f (t_opens t) (t_sub t) (t_cnt t) (t_len t).
  Definition update_fix (fx : name -> option (option (list nat))) (t : task) (st : store)
    : res (task * store) :=
    do p <- update_fix_dict fx (t_fix t) st;
    Ok (with_fix t (fst p), set_pre (snd p) false).

  (** contraction.py:272-275: write the values of slice [idx] into the fix cells *)
  Fixpoint set_slice (f : list ((name * list nat) * cell)) (idx : nat) (st : store) : store :=
    match f with
    | [] => st
    | ((e, vs), c) :: r =>
        let n := length vs in
        set_slice r (idx / n) (set_cell st c (nth (idx mod n) vs 0))
    end.
  (** contraction.py:259-283 __getitem__ *)
  Definition getitem (t : task) (idx : nat) (st : store) : res (task * store) :=
    do st <- (if pre st then Ok st
              else do st <- load_data t st;
                   run_cmds (firstn (t_cnt t) (t_cmds t)) (set_pre st true));
    Ok (Task (skipn (t_cnt t) (t_cmds t)) (t_out t) [] (t_shape t) [] None (t_sub t) 0 1,
        set_slice (t_fix t) idx st).

  (** contraction.py:181-192: the position, among the values of its edge, of each fixed edge that is
      not an output of the subtasks *)
  Fixpoint digits (sub : list name) (f : list ((name * list nat) * cell)) (a : nat)
    : list (name * nat) :=
    match f with
    | [] => []
    | ((e, vs), c) :: r =>
        if mem e sub then digits sub r a
        else (e, a mod length vs) :: digits sub r (a / length vs)
    end.
  (** res[tuple(ls)] += b: ValueError when the shapes differ (numpy would broadcast size-1 axes: not
      modelled) *)
  Definition nd_add_at (a : nd) (ls : list nat) (b : nd) : res nd :=
    if eqb (skipn (length ls) (nd_shape a)) (nd_shape b)
    then Ok (ND (nd_shape a)
                (fun idx => if eqb (firstn (length ls) idx) ls
                            then kadd (nd_at a idx) (nd_at b (skipn (length ls) idx))
                            else nd_at a idx))
    else Err ValueError.
  Fixpoint merge_add (sub lst_id : list name) (f : list ((name * list nat) * cell))
             (rs : list (nat * nd)) (acc : nd) : res nd :=
    match rs with
    | [] => Ok acc
    | (k, b) :: r =>
        let ax := digits sub f k in
        do ls <- mapM (fun e => match get e ax with Some v => Ok v | None => Err KeyError end) lst_id;
        do acc <- nd_add_at acc ls b;
        merge_add sub lst_id f r acc
    end.
  Definition nd_sum (l : list nd) : nd :=
    match l with
    | [] => nd_scalar k0
    | a :: r => fold_left nd_add r a
    end.
  (** contraction.py:167-195 _merge; [rs] is the dictionary res_dic *)
  Definition merge (t : task) (rs : list (nat * nd)) : res nd :=
    match t_opens t with
    | None => Ok (nd_sum (map snd rs))
    | Some os =>
        if (t_len t =? 1) || (length (t_shape t) =? 0) then Ok (nd_sum (map snd rs))
        else
          let lst_id := filter (fun e => negb (mem e (t_sub t))) os in
          let lst := filter (fun i => negb (mem (nth i os NN) (t_sub t))) (seq 0 (length (t_shape t)))
                     ++ map (fun e => index_of e os) (t_sub t) in
          do r <- merge_add (t_sub t) lst_id (t_fix t) rs (nd_transpose (nd_zeros S (t_shape t)) lst);
          Ok (nd_transpose r (map (fun i => index_of i lst) (seq 0 (length (t_shape t)))))
    end.

  (** contractor.py:50-52: the subtasks are created and executed one after the other *)
  Fixpoint exec_slices (t : task) (l : list nat) (st : store) : res (list (nat * nd) * store) :=
    match l with
    | [] => Ok ([], st)
    | i :: r =>
        do p <- getitem t i st;
        do q <- exec (fst p) (snd p);
        do s <- exec_slices t r (snd q);
        Ok ((i, fst q) :: fst s, snd s)
    end.
  (** contractor.py:33-52 execute with the numpy engine *)
  Definition execute (t : task) (st : store) : res (nd * store) :=
    do st <- load_data t st;
    do p <- exec_slices t (seq 0 (t_len t)) st;
    do a <- merge t (fst p);
    Ok (a, snd p).

  (** ** Compiler *)
  Section Compile.
    Context {T : Type} `{Payload T}.
    Notation net := (tn T).
    (** [ev t] is the array [t.contract()] *)
    Variable ev : T -> res nd.

    (** compiler.py:142-154 _generate_template_edge_fix; None when an edge is fixed to no value (the
        task is then the zero array) *)
    Fixpoint edge_fix (split : list name) (es : list (name * edge))
      : res (option (list (name * list nat))) :=
      match es with
      | [] => Ok (Some [])
      | (e, ed) :: r =>
          if mem e split then
            match e_dim ed with
            | None => Err TypeError
            | Some d => do q <- edge_fix split r; Ok (option_map (cons (e, seq 0 d)) q)
            end
          else match e_fix ed with
               | None => edge_fix split r
               | Some [] => Ok None
               | Some fx => do q <- edge_fix split r; Ok (option_map (cons (e, fx)) q)
               end
      end.
    (** compiler.py:145-146: the split edges of the working copy are fixed to all their values *)
    Definition split_edges (split : list name) (n : net) : net :=
      with_edges n (map (fun p => if mem (fst p) split
                                  then (fst p, Edge (e_dim (snd p))
                                                    (option_map (seq 0) (e_dim (snd p))))
                                  else p) (edges n)).
    (** positions of the legs that are in [fd], compiler.py:129-134 *)
    Fixpoint fixed_pos (fd : list name) (k : nat) (l : list name) : list nat :=
      match l with
      | [] => []
      | e :: r => if mem e fd then k :: fixed_pos fd (1 + k) r else fixed_pos fd (1 + k) r
      end.
    (** compiler.py:128-138: the 'f' commands, and data_ref after them.  data_ref is a function from
        node names. *)
    Fixpoint template_fix (stage : nat) (fd : list name) (ns : list (name * node T))
               (dref : name -> aloc) : list cmd * (name -> aloc) :=
      match ns with
      | [] => ([], dref)
      | (x, nd) :: r =>
          let pos := fixed_pos fd 0 (n_legs nd) in
          match pos with
          | [] => template_fix stage fd r dref
          | _ =>
              let c := CmdF (dref x) (AFix stage x) pos
                            (map (fun e => (stage, e)) (filter (fun e => mem e fd) (n_legs nd))) in
              let q := template_fix stage fd r (fun y => if eqb y x then AFix stage x else dref y) in
              (c :: fst q, snd q)
          end
      end.
    Definition fix_dict (stage : nat) (fd : list (name * list nat))
      : list ((name * list nat) * cell) := map (fun p => (p, (stage, fst p))) fd.
    (** initial contents of the fix cells: compiler.py:147, 153 *)
    Definition fix_cells (fd1 : list (name * list nat)) (c : cell) : nat :=
      match c with
      | (1, e) => match get e fd1 with Some (v :: _) => v | _ => 0 end
      | _ => 0
      end.

    (** compiler.py:66-69: remove the closed edges without nodes *)
    Definition drop_idle (n : net) : net :=
      fold_left (fun n e => match adj_nodes n e with
                            | [] => if mem e (opens n) then n else graph_del_edge n e
                            | _ => n
                            end) (keys (edges n)) n.

    (** compiler.py:156-183 _generate_template_delta: the same two loops as complete_delta, without
        the early return *)
    Definition template_delta : M unit :=
      let! n := getst in
      let old := map snd (adj n) in
      (match nodes n with
       | [] => let! _ := add_node star (Some []) p_one false in ret tt
       | _ => ret tt
       end) ;;
      let! cnt := delta_open (enum (opens n)) [] in
      foreach (delta_fix old) cnt.

    (** tensor_network.py:215-233 subscripts: fixed edges have no symbol *)
    Definition unfixed (n : net) (e : name) : bool :=
      match get e (edges n) with
      | Some ed => match e_fix ed with None => true | Some _ => false end
      | None => false
      end.
    Definition subs_lhs (n : net) : list (list name) :=
      map (fun p => filter (unfixed n) (n_legs (snd p))) (nodes n).
    Definition subs_rhs (n : net) : list name := filter (unfixed n) (opens n).

    (** list.remove: first occurrence; ValueError when absent *)
    Fixpoint remove1 (x : name) (l : list name) : list name :=
      match l with [] => [] | y :: r => if eqb x y then r else y :: remove1 x r end.
    (** a pairwise order: a list of [[x, y], z] *)
    Definition order : Type := list (name * name * name).
    (** compiler.py:100-107 *)
    Fixpoint order_path (l : list name) (o : order) : res (list (nat * nat)) :=
      match o with
      | [] => Ok []
      | (x, y, z) :: r =>
          if mem x l && mem y (remove1 x l) then
            do p <- order_path (remove1 y (remove1 x l) ++ [z]) r;
            Ok ((index_of x l, index_of y l) :: p)
          else Err ValueError
      end.

    (** the zero task of compiler.py:151 *)
    Definition zero_task : task := Task [] AOut [] [] [] (Some []) [] 0 1.

    (** [tn.shape] as a tuple of integers; a missing dimension makes numpy.zeros raise TypeError *)
    Definition shape_ints (n : net) : res (list nat) :=
      do sh <- shape_tn n; mapM (fun d => match d with Some k => Ok k | None => Err TypeError end) sh.

    Definition run_net {A} (m : M A) (n : net) : res (net * A) :=
      match m n with
      | (n', Ok a) => Ok (n', a)
      | (_, Err e) => Err e
      end.

    (** compiler.py:58-120 _generate_template, with _order_patch returning [[], order]
        (compiler.py:222-223).  tn.copy().expand(recursive=True) (line 63) is the identity on a
        network without nested networks.  Returns the task and the initial contents of its cells. *)
    Definition generate_template (n : net) (o : order) (split : list name) : res (task * store) :=
      let nc := drop_idle (fix_all (with_opens (copy_tn n) (opens n ++ split))) in
      do f1 <- edge_fix [] (edges n);
      do sh <- shape_ints n;
      match f1 with
      | None =>
          Ok (zero_task,
              Store (fun l => match l with AOut => Some (nd_zeros S sh) | _ => None end)
                    (fun _ => 0) [] false)
      | Some fd1 =>
          let (cs1, dref1) := template_fix 1 (keys fd1) (nodes n) AIn in
          do f2 <- edge_fix split (edges nc);
          match f2 with
          | None => Err TypeError
          | Some fd2 =>
              let (cs2, dref2) := template_fix 2 (keys fd2) (nodes nc) dref1 in
              let nc := split_edges split nc in
              let nc := with_opens nc (filter (fun e => negb (mem e split)) (opens nc)) in
              do p <- run_net (foreach (fun e => fix_edge e [0] false) split) nc;
              let nc := fix_all (fst p) in
              do p <- run_net template_delta nc;
              let nd := fst p in
              let dref := fun x => if has x (nodes nc) then dref2 x else AConst x in
              do path <- match o with
                         | [] => Ok None
                         | _ => do p <- order_path (keys (nodes nd)) o; Ok (Some p)
                         end;
              do consts <- mapM (fun q => match n_val (snd q) with
                                          | Some t => do a <- ev t; Ok (fst q, a)
                                          | None => Err KeyError
                                          end)
                                (filter (fun q => negb (has (fst q) (nodes nc))) (nodes nd));
              let fx := fix_dict 1 fd1 ++ fix_dict 2 fd2 in
              Ok (Task (cs1 ++ cs2 ++ [CmdC (map dref (keys (nodes nd))) AOut (subs_lhs nd)
                                            (subs_rhs nd) path])
                       AOut (map (fun x => (x, AIn x)) (keys (nodes n))) sh fx (Some (opens n))
                       (opens nd) (length cs1) (fix_length fx),
                  Store (fun l => match l with AConst x => get x consts | _ => None end)
                        (fix_cells fd1) [] false)
          end
      end.

    (** compiler.py:51-54 *)
    Definition node_data (n : net) : res (list (name * nd)) :=
      mapM (fun q => match n_val (snd q) with
                     | Some t => do a <- ev t; Ok (fst q, a)
                     | None => Err KeyError
                     end) (nodes n).
    Definition fix_attr (n : net) (e : name) : option (option (list nat)) :=
      match get e (edges n) with Some ed => Some (e_fix ed) | None => None end.

    (** compiler.py:36-56 compile; [cost] is scheme.cost.t and [memory] the constructor argument *)
    Definition compile (memory cost : Z) (n : net) (o : order) (split : list name)
      : res (task * store) :=
      if (memory * 2 ^ 30 <? cost * 3 * 2 ^ 4)%Z then Err RuntimeError
      else
        do p <- generate_template n o split;
        do d <- node_data n;
        update_fix (fix_attr n) (fst p) (set_data d (snd p)).
  End Compile.
End Contract.
