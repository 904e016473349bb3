(** * Model of the path optimisers of acqdp/utility/opt_einsum_paths.pyx

    Indices are natural numbers.  An index set (frozenset) is its strictly ascending list, so that sets
    used as dictionary keys are compared as sets. *)
From Coq Require Import List Arith ZArith Lia Bool.
From Verif Require Import Base PathSpec ModelOrder ModelPath.
Import ListNotations.
Set Implicit Arguments.
Open Scope nat_scope.

(** ** sets *)
Definition nset : Type := list nat.
Fixpoint sins (x : nat) (l : nset) : nset :=
  match l with
  | [] => [x]
  | y :: r => if x <? y then x :: l else if x =? y then l else y :: sins x r
  end.
Definition mkset (l : list nat) : nset := fold_right sins [] l.
Definition sunion (a b : nset) : nset := mkset (a ++ b).
Definition sinter (a b : nset) : nset := filter (fun x => mem x b) a.
Definition sdiff (a b : nset) : nset := filter (fun x => negb (mem x b)) a.
Definition nonempty {A} (l : list A) : bool := match l with [] => false | _ => true end.

Fixpoint foldM {A B} (f : B -> A -> res B) (b : B) (l : list A) : res B :=
  match l with [] => Ok b | x :: r => do b <- f b x; foldM f b r end.

(** itertools.combinations(l, 2) *)
Fixpoint combos {A} (l : list A) : list (A * A) :=
  match l with [] => [] | x :: r => map (fun y => (x, y)) r ++ combos r end.

Definition at_ {A} (l : list A) (i : nat) : res A :=
  match nth_error l i with Some x => Ok x | None => Err IndexError end.

(** float('inf') or a number *)
Definition below_best (z : Z) (best : option Z) : bool :=
  match best with None => true | Some b => Z.ltb z b end.

(** ** opt_einsum_paths.pyx:89-127 calc_k12_flops *)
Definition calc_k12_flops (sizes : list (nat * Z)) (output : nset) (inputs : list nset) (remaining : list nat) (i j : nat)
  : res (nset * Z) :=
  do k1 <- at_ inputs i;
  do k2 <- at_ inputs j;
  do others <- mapM (at_ inputs) (filter (fun x => negb (mem x [i; j])) remaining);
  let either := sunion k1 k2 in
  let keep := mkset (output ++ concat others) in
  do c <- flop_count either (nonempty (sdiff (sinter k1 k2) keep)) 2 sizes;
  Ok (sinter either keep, c).
(** :130-138 _compute_oversize_flops *)
Definition oversize_flops (sizes : list (nat * Z)) (output : nset) (inputs : list nset) (remaining : list nat) : res Z :=
  do ks <- mapM (at_ inputs) remaining;
  let idx := mkset (concat ks) in
  flop_count idx (nonempty (sdiff idx output)) (Z.of_nat (length remaining)) sizes.

Definition rcache : Type := list ((nset * nset) * (nset * Z)).

(** a memory limit in _UNLIMITED_MEM is None; size_cache only remembers values of a function *)
Definition over_limit (limit : option Z) (s : Z) : bool :=
  match limit with None => false | Some m => Z.ltb m s end.

(** ** opt_einsum_paths.pyx:140-222 optimal

    [ord] is the order in which Python iterates over a set of integers: any rearrangement. *)
Record ostate := OState { o_flops : option Z; o_path : lpath; o_cache : rcache }.
Section Optimal.
  Variable ord : list nat -> list nat.
  Variable sizes : list (nat * Z).
  Variable limit : option Z.
  Variable output : nset.

  Fixpoint optimal_iter (fuel : nat) (path : lpath) (remaining : list nat) (inputs : list nset) (flops : Z) (st : ostate)
    : res ostate :=
    if length remaining =? 1 then Ok (OState (Some flops) path (o_cache st))
    else
      match fuel with
      | 0 => Err OutOfFuel
      | S fuel =>
          foldM (fun st p =>
            let i := Nat.min (fst p) (snd p) in
            let j := Nat.max (fst p) (snd p) in
            do k1 <- at_ inputs i;
            do k2 <- at_ inputs j;
            do w <- (match get (k1, k2) (o_cache st) with
                     | Some w => Ok (w, o_cache st)
                     | None => do w <- calc_k12_flops sizes output inputs remaining i j;
                               Ok (w, set (k1, k2) w (o_cache st))
                     end);
            let k12 := fst (fst w) in
            let new_flops := (flops + snd (fst w))%Z in
            let st := OState (o_flops st) (o_path st) (snd w) in
            if below_best new_flops (o_flops st) then
              do over <- (match limit with
                          | None => Ok false
                          | Some _ => do s <- size_by_dict k12 sizes; Ok (over_limit limit s)
                          end);
              if over : bool then
                do c <- oversize_flops sizes output inputs remaining;
                let new_flops := (flops + c)%Z in
                if below_best new_flops (o_flops st)
                then Ok (OState (Some new_flops) (path ++ [ord remaining]) (o_cache st))
                else Ok st
              else
                optimal_iter fuel (path ++ [[i; j]])
                  (filter (fun x => negb (mem x [i; j])) remaining ++ [length inputs])
                  (inputs ++ [k12]) new_flops st
            else Ok st) st (combos (ord remaining))
      end.

  Definition optimal (inputs : list nset) : res (list (list Z)) :=
    let n := length inputs in
    do st <- optimal_iter n [] (seq 0 n) inputs 0 (OState None [seq 0 n] []);
    ssa_to_linear (o_path st).
End Optimal.

(** ** opt_einsum_paths.pyx:263-434 BranchBound

    [arrange path cs]: the order in which the candidates [cs] leave the heap, at the point of the search
    reached by [path].  Any rearrangement covers every heuristic cost function, random ones included.
    [slow a b]: a > cutoff_flops_factor * b. *)
Record cand := Cand { c_size12 : Z; c_size1 : Z; c_size2 : Z; c_flops12 : Z; c_flops : Z; c_size : Z;
                      c_i : nat; c_j : nat; c_k12 : nset }.
(** self.best and self.best_progress live as long as the optimiser object; result_cache as long as a call *)
Record bstate := BState { b_flops : option Z; b_size : option Z; b_path : option lpath; b_prog : list (nat * Z);
                          b_cache : rcache }.
(** :227-232 better_flops_first, better_size_first *)
Definition pair_below (a b : Z) (x y : option Z) : bool :=
  match x with
  | None => true
  | Some x => Z.ltb a x || (Z.eqb a x && below_best b y)
  end.
Section Branch.
  Variable ord : list nat -> list nat.
  Variable sizes : list (nat * Z).
  Variable limit : option Z.
  Variable output : nset.
  Variable nbranch : option nat.
  Variable size_first : bool.
  Variable slow : Z -> Z -> bool.
  Variable arrange : lpath -> list cand -> list cand.

  Definition better (flops size : Z) (st : bstate) : bool :=
    if size_first then pair_below size flops (b_size st) (b_flops st)
    else pair_below flops size (b_flops st) (b_size st).

  (** :352-391 _assess_candidate *)
  Definition assess (path : lpath) (inputs : list nset) (remaining : list nat) (flops size : Z) (st : bstate) (i j : nat)
    : res (bstate * option cand) :=
    do k1 <- at_ inputs i;
    do k2 <- at_ inputs j;
    do w <- (match get (k1, k2) (b_cache st) with
             | Some w => Ok (w, b_cache st)
             | None => do w <- calc_k12_flops sizes output inputs remaining i j;
                       Ok (w, set (k1, k2) w (b_cache st))
             end);
    let k12 := fst (fst w) in
    do size12 <- size_by_dict k12 sizes;
    let st := BState (b_flops st) (b_size st) (b_path st) (b_prog st) (snd w) in
    let new_flops := (flops + snd (fst w))%Z in
    let new_size := Z.max size size12 in
    if better new_flops new_size st then
      let p := get (length inputs) (b_prog st) in
      let faster := below_best new_flops p in
      if negb faster && match p with Some b => slow new_flops b | None => false end then Ok (st, None)
      else
        let st := if faster then BState (b_flops st) (b_size st) (b_path st) (set (length inputs) new_flops (b_prog st)) (b_cache st)
                  else st in
        if over_limit limit size12 then
          do c <- oversize_flops sizes output inputs remaining;
          let new_flops := (flops + c)%Z in
          if below_best new_flops (b_flops st)
          then Ok (BState (Some new_flops) (b_size st) (Some (path ++ [ord remaining])) (b_prog st) (b_cache st), None)
          else Ok (st, None)
        else
          do s1 <- size_by_dict k1 sizes;
          do s2 <- size_by_dict k2 sizes;
          Ok (st, Some (Cand size12 s1 s2 (snd (fst w)) new_flops new_size i j k12))
    else Ok (st, None).

  (** :395-416 the two loops collecting candidates *)
  Definition collect (outer : bool) path inputs remaining flops size (st : bstate) : res (bstate * list cand) :=
    foldM (fun s p =>
      let i := Nat.min (fst p) (snd p) in
      let j := Nat.max (fst p) (snd p) in
      do k1 <- at_ inputs i;
      do k2 <- at_ inputs j;
      if negb outer && negb (nonempty (sinter k1 k2)) then Ok s
      else
        do a <- assess path inputs remaining flops size (fst s) i j;
        Ok (fst a, match snd a with Some c => snd s ++ [c] | None => snd s end))
      (st, []) (combos (ord remaining)).

  Fixpoint branch_iter (fuel : nat) (path : lpath) (inputs : list nset) (remaining : list nat) (flops size : Z) (st : bstate)
    : res bstate :=
    if length remaining =? 1 then Ok (BState (Some flops) (Some size) (Some path) (b_prog st) (b_cache st))
    else
      match fuel with
      | 0 => Err OutOfFuel
      | S fuel =>
          do r <- collect false path inputs remaining flops size st;
          do r <- (match snd r with
                   | [] => collect true path inputs remaining flops size (fst r)
                   | _ => Ok r
                   end);
          let cs := arrange path (snd r) in
          foldM (fun st c =>
            branch_iter fuel (path ++ [[c_i c; c_j c]]) (inputs ++ [c_k12 c])
              (filter (fun x => negb (mem x [c_i c; c_j c])) remaining ++ [length inputs]) (c_flops c) (c_size c) st)
            (fst r) (match nbranch with None => cs | Some b => firstn b cs end)
      end.

  (** :303-308 __init__ *)
  Definition branch_new : bstate := BState None None None [] [].
  (** :314-434 __call__ of an existing optimiser: the new state of the object and the path *)
  Definition branch_call (st : bstate) (inputs : list nset) : res (bstate * list (list Z)) :=
    let n := length inputs in
    do _ <- mapM (fun k => size_by_dict k sizes) inputs;
    do st <- branch_iter n [] inputs (seq 0 n) 0 0 (BState (b_flops st) (b_size st) (b_path st) (b_prog st) []);
    match b_path st with
    | None => Err KeyError
    | Some p => do q <- ssa_to_linear p; Ok (st, q)
    end.
  (** :437-439 branch *)
  Definition branch (inputs : list nset) : res (list (list Z)) :=
    do r <- branch_call branch_new inputs; Ok (snd r).
End Branch.

(** heapq on tuples of numbers: the candidates in ascending order of their keys *)
Fixpoint lex_ltb (a b : list Z) : bool :=
  match a, b with
  | x :: r, y :: q => Z.ltb x y || (Z.eqb x y && lex_ltb r q)
  | [], _ :: _ => true
  | _, [] => false
  end.
Fixpoint ins_lex {A} (key : A -> list Z) (x : A) (l : list A) : list A :=
  match l with [] => [x] | y :: r => if lex_ltb (key x) (key y) then x :: l else y :: ins_lex key x r end.
Definition sort_lex {A} (key : A -> list Z) (l : list A) : list A := fold_left (fun acc x => ins_lex key x acc) l [].
(** :248-252 cost_memory_removed and :391 the tuple pushed *)
Definition memory_removed (_ : lpath) : list cand -> list cand :=
  sort_lex (fun c => [c_size12 c - c_size1 c - c_size2 c; c_flops12 c; c_flops c; c_size c;
                      Z.of_nat (c_i c); Z.of_nat (c_j c)])%Z.

(** ** opt_einsum_paths.pyx:447-600 greedy *)
Record gcand := GCand { g_size : Z; g_foot1 : Z; g_foot2 : Z; g_id1 : nat; g_id2 : nat;
                        g_k1 : nset; g_k2 : nset; g_k12 : nset }.
Record gstate := GState { g_rem : list (nset * nat); g_next : nat; g_path : lpath;
                          g_d2k : list (nat * list nset); g_ref2 : nset; g_ref3 : nset;
                          g_foot : list (nset * Z); g_queue : list gcand }.

(** popping element [i] of a queue (the first when there is no such element) *)
Definition pop_at {A} (i : nat) (q : list A) : option (A * list A) :=
  let i := if i <? length q then i else 0 in
  match nth_error q i with Some x => Some (x, del_nth i q) | None => None end.
Definition d2k (d : list (nat * list nset)) (x : nat) : list nset := match get x d with Some l => l | None => [] end.

Section Greedy.
  Variable sizes : list (nat * Z).
  (** the candidate kept by min(candidates) and the one popped from the queue, as positions; any
      functions of the path found so far and of the candidates, so every cost and choice function that takes
      one candidate off the queue is covered *)
  Variable choose_push choose_pop : lpath -> list gcand -> nat.
  Variable push_all : bool.

  (** :447-459 _get_candidate *)
  Definition get_candidate (output : nset) (st : gstate) (k1 k2 : nset) : res gcand :=
    let either := sunion k1 k2 in
    let two := sinter k1 k2 in
    let one := sdiff either two in
    let k12 := sunion (sinter either output) (sunion (sinter two (g_ref3 st)) (sinter one (g_ref2 st))) in
    do s <- size_by_dict k12 sizes;
    match get k1 (g_foot st), get k2 (g_foot st), get k1 (g_rem st), get k2 (g_rem st) with
    | Some f1, Some f2, Some id1, Some id2 =>
        if id2 <? id1 then Ok (GCand s f1 f2 id2 id1 k2 k1 k12) else Ok (GCand s f1 f2 id1 id2 k1 k2 k12)
    | _, _, _, _ => Err KeyError
    end.
  (** :462-470 _push_candidate *)
  Definition push_candidate (output : nset) (st : gstate) (k1 : nset) (k2s : list nset) : res gstate :=
    do cs <- mapM (get_candidate output st k1) k2s;
    do new <- (if push_all then Ok cs
               else match pop_at (choose_push (g_path st) cs) cs with
                    | Some (c, _) => Ok [c]
                    | None => Err ValueError
                    end);
    Ok (GState (g_rem st) (g_next st) (g_path st) (g_d2k st) (g_ref2 st) (g_ref3 st) (g_foot st) (g_queue st ++ new)).

  (** :473-484 _update_ref_counts *)
  Definition update_ref (d : list (nat * list nset)) (r : nset * nset) (x : nat) : nset * nset :=
    let c := length (d2k d x) in
    if c <=? 1 then (sdiff (fst r) [x], sdiff (snd r) [x])
    else if c =? 2 then (sins x (fst r), sdiff (snd r) [x])
    else (sins x (fst r), sins x (snd r)).

  (** :521-531 the loop removing duplicate shapes *)
  Fixpoint dedup_inputs (i : nat) (inputs : list nset) (rem : list (nset * nat)) (next : nat) (path : lpath)
    : list (nset * nat) * nat * lpath :=
    match inputs with
    | [] => (rem, next, path)
    | k :: r =>
        match get k rem with
        | Some id => dedup_inputs (S i) r (set k next rem) (S next) (path ++ [[id; i]])
        | None => dedup_inputs (S i) r (set k i rem) next path
        end
    end.
  Definition add_key (k : nset) (d : list (nat * list nset)) (x : nat) : list (nat * list nset) :=
    set x (if mem k (d2k d x) then d2k d x else d2k d x ++ [k]) d.
  (** set.remove: KeyError when missing *)
  Definition remove_key (k : nset) (d : list (nat * list nset)) (x : nat) : res (list (nat * list nset)) :=
    if mem k (d2k d x) then Ok (set x (filter (fun y => negb (eqb k y)) (d2k d x)) d) else Err KeyError.
  Definition dims_of (output : nset) (rem : list (nset * nat)) : list (nat * list nset) :=
    fold_left (fun d k => fold_left (add_key k) (sdiff k output) d) (keys rem) [].

  (** :553-557 initial candidates *)
  Fixpoint push_keys (output : nset) (st : gstate) (ks : list nset) : res gstate :=
    match ks with
    | [] => Ok st
    | [_] => Ok st
    | k :: r => do st <- push_candidate output st k r; push_keys output st r
    end.
  Definition key_id (rem : list (nset * nat)) (k : nset) : Z :=
    match get k rem with Some i => Z.of_nat i | None => 0%Z end.
  Definition init_queue (output : nset) (st : gstate) : res gstate :=
    foldM (fun st d => push_keys output st (sort_key (key_id (g_rem st)) (snd d))) st (g_d2k st).

  (** :560-591 the main loop *)
  Fixpoint greedy_loop (fuel : nat) (output : nset) (st : gstate) : res gstate :=
    match g_queue st with
    | [] => Ok st
    | _ =>
        match fuel with
        | 0 => Err OutOfFuel
        | S fuel =>
            match pop_at (choose_pop (g_path st) (g_queue st)) (g_queue st) with
            | None => Err IndexError
            | Some (c, q) =>
                let k1 := g_k1 c in let k2 := g_k2 c in let k12 := g_k12 c in
                if has k1 (g_rem st) && has k2 (g_rem st) then
                  match get k1 (g_rem st), get k2 (del k1 (g_rem st)) with
                  | Some id1, Some id2 =>
                      let rem := del k2 (del k1 (g_rem st)) in
                      do d <- foldM (remove_key k1) (g_d2k st) (sdiff k1 output);
                      do d <- foldM (remove_key k2) d (sdiff k2 output);
                      let path := g_path st ++ [[id1; id2]] in
                      let next := g_next st in
                      let '(d, path, next) :=
                        match get k12 rem with
                        | Some id => (d, path ++ [[id; next]], S next)
                        | None => (fold_left (add_key k12) (sdiff k12 output) d, path, next)
                        end in
                      let rem := set k12 next rem in
                      let r := fold_left (update_ref d) (sunion k1 (sdiff k2 output)) (g_ref2 st, g_ref3 st) in
                      do f <- size_by_dict k12 sizes;
                      let k2s := filter (fun k => negb (eqb k12 k)) (dedup (flat_map (d2k d) k12)) in
                      let st := GState rem (S next) path d (fst r) (snd r) (set k12 f (g_foot st)) q in
                      do st <- (match k2s with [] => Ok st | _ => push_candidate output st k12 k2s end);
                      greedy_loop fuel output st
                  | _, _ => Err KeyError
                  end
                else greedy_loop fuel output (GState (g_rem st) (g_next st) (g_path st) (g_d2k st) (g_ref2 st) (g_ref3 st) (g_foot st) q)
            end
        end
    end.

  (** :593-603 outer products; a heap of (cost, ssa id, key) with different ids *)
  Fixpoint pop_min (q : list (Z * nat * nset)) : option ((Z * nat * nset) * list (Z * nat * nset)) :=
    match q with
    | [] => None
    | x :: r =>
        match pop_min r with
        | None => Some (x, [])
        | Some (y, s) => if lex_ltb [fst (fst y); Z.of_nat (snd (fst y))] [fst (fst x); Z.of_nat (snd (fst x))]
                         then Some (y, x :: s) else Some (x, r)
        end
    end.
  Fixpoint outer_loop (fuel : nat) (output : nset) (id1 : nat) (k1 : nset) (q : list (Z * nat * nset)) (next : nat) (path : lpath)
    : res lpath :=
    match pop_min q with
    | None => Ok path
    | Some ((_, id2, k2), q) =>
        match fuel with
        | 0 => Err OutOfFuel
        | S fuel =>
            let k12 := sinter (sunion k1 k2) output in
            do c <- size_by_dict k12 sizes;
            match pop_min (q ++ [(c, next, k12)]) with
            | None => Err IndexError
            | Some ((_, id1', k1'), q) =>
                outer_loop fuel output id1' k1' q (S next) (path ++ [[Nat.min id1 id2; Nat.max id1 id2]])
            end
        end
    end.

  (** frozenset.intersection of all inputs *)
  Definition common (inputs : list nset) : nset :=
    match inputs with [] => [] | k :: r => filter (fun x => forallb (fun l => mem x l) r) k end.

  (** :503-605 ssa_greedy_optimize *)
  Definition ssa_greedy (inputs : list nset) (out : nset) : res lpath :=
    match inputs with
    | [] => Err TypeError
    | [_] => Ok [[0]]
    | _ =>
        let output := sunion out (common inputs) in
        let '(rem, next, path) := dedup_inputs 0 inputs [] (length inputs) [] in
        let d := dims_of output rem in
        let refs c := sdiff (mkset (map fst (filter (fun p => c <=? length (snd p)) d))) output in
        do foot <- mapM (fun k => do s <- size_by_dict k sizes; Ok (k, s)) (keys rem);
        do st <- init_queue output (GState rem next path d (refs 2) (refs 3) foot []);
        do st <- greedy_loop (S (length (g_queue st) + length rem * length rem)) output st;
        do q <- mapM (fun p => do s <- size_by_dict (sinter (fst p) output) sizes; Ok (s, snd p, fst p)) (g_rem st);
        match pop_min q with
        | None => Err IndexError
        | Some ((_, id1, k1), q) => outer_loop (length q) output id1 k1 q (g_next st) (g_path st)
        end
    end.
  (** :608-652 greedy without a memory limit; with a limit it is branch with nbranch = 1 *)
  Definition greedy (inputs : list nset) (out : nset) : res (list (list Z)) :=
    do s <- ssa_greedy inputs out; ssa_to_linear s.
End Greedy.
