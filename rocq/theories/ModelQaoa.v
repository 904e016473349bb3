(** Model of demo/QAOA/qaoa.py: the light cone of a clause, the compiled tasks and the energy query.

    Variables are integers, so that names are tuples of integers and the clauses can be sorted (qaoa.py:53).
    A clause's array has one axis of length 2 per variable (checkinstance, qaoa.py:14-37) and real entries.
    The iteration order of Python sets is a parameter.  Not modelled: random initial parameters, the optimiser of scipy,
    the keyword arguments 'clauses' and 'multiplier' of preprocess, progress output. *)
From Coq Require Import Reals.
From Verif Require Import Base Scalar NetSpec ModelArray ModelTN ModelVal ModelContract ContractFlat ContractData Complex QaoaSpec.
Set Implicit Arguments.
Open Scope nat_scope.

Section Qaoa.
  Local Notation net := (tn (tval CK)).
  Local Existing Instance tval_payload.
  (** the order in which Python iterates over the set that holds these variables *)
  Variable iter : list Z -> list Z.
  (** qaoa.py:52 self.csp, and the number of layers *)
  Variable c : csp.
  Variable p : nat.

  (** the tuples (i, q) and (i, clause) used as names *)
  Definition qname (i : Z) (q : Z) : name := NT [NI i; NI q].
  Definition cname (i : Z) (cl : list Z) : name := NT [NI i; NT (map NI cl)].

  (** set(clause).intersection(qubits_set) is not empty *)
  Definition touches (l : list Z) (cl : list Z) : bool := existsb (fun q => mem q l) cl.
  (** a.difference(b), as a set *)
  Definition minus (a b : list Z) : list Z := filter (fun q => negb (mem q b)) (dedup a).

  (** a node without data: tn.add_node(name, edges, None) *)
  Definition blank_node (x : name) (es : list name) : M (T := tval CK) unit :=
    let! _ := add_node x (Some es) (VTensor None) false in ret tt.

  (** qaoa.py:84-86 *)
  Definition mixer_nodes (i : Z) (q : Z) : M (T := tval CK) unit :=
    blank_node (qname (2 * i + 1) q) [qname i q; qname (i + 1) q] ;;
    blank_node (qname (- 2 * i - 1) q) [qname (- i) q; qname (- i - 1) q].
  (** qaoa.py:90, 93-94 *)
  Definition phase_nodes (l : list Z) (i : Z) (cl : list Z) : M (T := tval CK) unit :=
    if touches l cl
    then blank_node (cname (2 * i + 2) cl) (map (qname (i + 1)) cl) ;;
         blank_node (cname (- 2 * i - 2) cl) (map (qname (- i - 1)) cl)
    else ret tt.
  (** qaoa.py:88-92: new_set *)
  Definition new_set (l : list Z) : list Z := concat (filter (touches l) (map fst c)).
  (** qaoa.py:83-96: [k] rounds of the loop, from round [i]; returns qubits_set and turns *)
  Fixpoint layers (k : nat) (i : nat) (l : list Z) (turns : list (Z * nat)) : M (T := tval CK) (list Z * list (Z * nat)) :=
    match k with
    | 0 => ret (l, turns)
    | Datatypes.S k =>
        foreach (mixer_nodes (Z.of_nat i)) (iter l) ;;
        foreach (phase_nodes l (Z.of_nat i)) (map fst c) ;;
        let new := minus (new_set l) l in
        layers k (Datatypes.S i) (l ++ new) (turns ++ map (fun q => (q, Datatypes.S i)) (iter new))
    end.
  (** qaoa.py:97-98 *)
  Definition close_turn (t : Z * nat) : M (T := tval CK) unit :=
    let! _ := merge_edges [qname (Z.of_nat (snd t)) (fst t); qname (- Z.of_nat (snd t)) (fst t)] (qname 0 (fst t)) in ret tt.
  (** qaoa.py:76-100 lightcone *)
  Definition lightcone (cl : list Z) : M (T := tval CK) (list Z) :=
    let! r := layers p 0 (dedup cl) [] in
    foreach close_turn (snd r) ;;
    let! n := getst in
    update_dimension (map (fun e => (e, Some 2)) (keys (edges n))) ;;
    ret (fst r).
  (** qaoa.py:125-128: the network of a clause and the number of variables in its light cone *)
  Definition clause_net (cl : list Z) : res (net * nat) :=
    match (let! l := lightcone cl in
           blank_node (cname 0 cl) (map (qname 0) cl) ;;
           ret (length l)) (@empty_tn (tval CK)) with
    | (n, Ok k) => Ok (n, k)
    | (_, Err e) => Err e
    end.

  (** ** the arrays *)
  Definition mat2 (f : nat -> nat -> CK) : nd CK :=
    ND [2; 2] (fun idx => match idx with [i; j] => f i j | _ => k0 end).
  (** qaoa.py:9-11 *)
  Definition XRot (b : R) : nd CK :=
    mat2 (fun i j => if i =? j then cr (cos b) else kmul ci (cr (sin b))).
  (** list[-i] for 1 <= i *)
  Definition from_end (l : list R) (i : nat) : R := nth (length l - i) l 0%R.
  (** qaoa.py:107-108 *)
  Definition betas (params : list R) : list R := firstn p params.
  Definition gammas (params : list R) : list R := skipn p params.
  (** the table of a clause, looked up by the clause; a missing clause would be a KeyError, here the zero table *)
  Definition table (r : name) : list nat * (list nat -> R) :=
    match find (fun q => eqb (NT (map NI (fst q))) r) c with
    | Some q => (repeat 2 (length (fst q)), snd q)
    | None => ([], fun _ => 0%R)
    end.
  (** qaoa.py:110-111: self.data[i][0] for the integer i *)
  Definition mixer_data (params : list R) (i : Z) : nd CK :=
    if (0 <? i)%Z then XRot (from_end (betas params) (Z.to_nat i))
    else XRot (- from_end (betas params) (Z.to_nat (- i)))%R.
  (** qaoa.py:113-114: self.data[(i, clause)][0] *)
  Definition phase_data (params : list R) (i : Z) (r : name) : nd CK :=
    let (sh, t) := table r in
    if (0 <? i)%Z then ND sh (fun idx => cis (from_end (gammas params) (Z.to_nat i) * t idx))
    else ND sh (fun idx => cis (- (from_end (gammas params) (Z.to_nat (- i)) * t idx))%R).
  (** qaoa.py:127, 133: multiplier * csp[clause] *)
  Definition cost_data (k : nat) (r : name) : nd CK :=
    let (sh, t) := table r in ND sh (fun idx => cr (/ 2 ^ k * t idx)%R).
  (** qaoa.py:131-137: the array of the node [x]; [k] is the number of variables in the light cone *)
  Definition node_data (params : list R) (k : nat) (x : name) : nd CK :=
    match x with
    | NT [NI i; r] =>
        if (i =? 0)%Z then cost_data k r
        else if Z.even i then phase_data params (i / 2) r
        else mixer_data params ((i + (if (0 <? i)%Z then 1 else -1)) / 2)
    | _ => nd_scalar k0
    end.

  (** ** tasks *)
  (** how the network of a clause is contracted: the order and the sliced edges found by find_order, the memory limit and the
      estimated cost *)
  Record scheme : Type := Scheme { s_order : order; s_split : list name; s_memory : Z; s_cost : Z }.
  (** an entry of query_dict and data_dict: the compiled task, its store, the node names and the size of the light cone *)
  Record prepared : Type := Prepared { pr_task : task; pr_store : store CK; pr_names : list name; pr_size : nat }.
  (** the placeholder the model stores in a node without data: compiling does not look at the entries (C31) *)
  Definition blanks (n : net) : list (name * nd CK) :=
    map (fun q => (fst q, nd_zeros CK (repeat 2 (length (n_legs (snd q)))))) (nodes n).
  (** qaoa.py:124-138 preprocess_clause *)
  Definition preprocess_clause (sch : list Z -> scheme) (cl : list Z) : res prepared :=
    do nk <- clause_net cl;
    do ts <- compile_net Ok (s_memory (sch cl)) (s_cost (sch cl)) (s_order (sch cl)) (s_split (sch cl))
               (with_arrays (fst nk) (blanks (fst nk)));
    Ok (Prepared (fst ts) (snd ts) (keys (nodes (fst nk))) (snd nk)).
  (** qaoa.py:140-156 preprocess *)
  Fixpoint preprocess (sch : list Z -> scheme) (cls : list (list Z)) : res (list prepared) :=
    match cls with
    | [] => Ok []
    | cl :: r => do a <- preprocess_clause sch cl; do b <- preprocess sch r; Ok (a :: b)
    end.
  (** qaoa.py:115-117 and 189-190 for one task: set_data, execute; the result is an array without axes *)
  Definition query_clause (params : list R) (a : prepared) : res (CK * prepared) :=
    do rs <- execute (pr_task a)
               (set_data (map (fun x => (x, node_data params (pr_size a) x)) (pr_names a)) (pr_store a));
    Ok (nd_at (fst rs) [], Prepared (pr_task a) (snd rs) (pr_names a) (pr_size a)).
  (** qaoa.py:180-193 query: the sum of the results *)
  Fixpoint query (params : list R) (l : list prepared) : res (CK * list prepared) :=
    match l with
    | [] => Ok (k0, [])
    | a :: r => do x <- query_clause params a; do y <- query params r; Ok (kadd (fst x) (fst y), snd x :: snd y)
    end.
  (** any number of queries, one after the other *)
  Fixpoint queries (pss : list (list R)) (l : list prepared) : res (list CK) :=
    match pss with
    | [] => Ok []
    | ps :: r => do x <- query ps l; do y <- queries r (snd x); Ok (fst x :: y)
    end.
End Qaoa.

(** ** the best assignment by enumeration *)
(** itertools.product([0, 1], repeat=n) *)
Fixpoint assignments (n : nat) : list (list nat) :=
  match n with 0 => [[]] | S n => flat_map (fun b => map (cons b) (assignments n)) [0; 1] end.
(** assignment[k] of a tuple *)
Definition tuple_at (x : list nat) (k : Z) : res nat :=
  let n := Z.of_nat (length x) in
  if (0 <=? k)%Z && (k <? n)%Z then Ok (nth (Z.to_nat k) x 0)
  else if (- n <=? k)%Z && (k <? 0)%Z then Ok (nth (Z.to_nat (n + k)) x 0)
  else Err IndexError.
(** qaoa.py:195-199 energy(assignment) *)
Fixpoint energy_of (c : csp) (x : list nat) (e : R) : res R :=
  match c with
  | [] => Ok e
  | p :: r => do v <- mapM (tuple_at x) (fst p); energy_of r x (e + snd p v)%R
  end.
(** min(..., key): the first of the least *)
Fixpoint least (key : list nat -> res R) (l : list (list nat)) (v : R) (x : list nat) : res (R * list nat) :=
  match l with
  | [] => Ok (v, x)
  | y :: r => do w <- key y; if Rlt_dec w v then least key r w y else least key r v x
  end.
(** qaoa.py:201-204 optimum; len(self.lst_var) is the number of variables *)
Definition optimum (c : csp) : res (R * list nat) :=
  match assignments (length (variables c)) with
  | [] => Err ValueError
  | y :: r =>
      let key := fun a => energy_of c a 0%R in
      do v <- key y;
      do m <- least key r v y;
      do w <- key (snd m);
      Ok (w, snd m)
  end.
