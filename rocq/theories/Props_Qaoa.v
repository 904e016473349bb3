(** * C55: the QAOA demo returns the energy

    The demo builds one network per clause, with only the gates in the light cone of the clause, compiles each once, and answers
    every query by putting the new angles into the compiled tasks.  The claim: every answer is the energy <psi|C|psi> of the full
    circuit on all the variables. *)
From Coq Require Import Reals Lra.
From Verif Require Import Base Scalar NetSpec ModelArray ModelTN ModelVal ModelContract ContractMain ContractUser ContractData Complex
  QaoaSpec ModelQaoa QaoaBuild QaoaCone QaoaTask QaoaOpt.
Set Implicit Arguments.
Open Scope nat_scope.

(** the scheme of a clause's network: the sliced edges are edges of the network, the order is empty or a pairwise order of its
    nodes, and the memory suffices *)
Definition usable_scheme (n : tn (tval CK)) (s : scheme) : Prop :=
  incl (s_split s) (keys (edges n)) /\
  (s_order s = [] \/ valid_order (keys (nodes n)) (s_order s)) /\
  fits_memory (s_memory s) (s_cost s).

(** [iter] is the order in which Python lists a set; [cls] is the list of clauses in any order; a query has beta_1..beta_p
    followed by gamma_1..gamma_p *)
Theorem C55_queries_return_the_energy :
  forall (iter : list Z -> list Z) (c : csp) (p : nat) (sch : list Z -> scheme) (cls : list (list Z)) (queried : list (list R)),
    (forall l, Permutation (iter l) l) -> valid_csp c -> 0 < p -> Permutation cls (map fst c) ->
    (forall cl n k, In cl cls -> clause_net iter c p cl = Ok (n, k) -> usable_scheme n (sch cl)) ->
    (forall params, In params queried -> length params = 2 * p) ->
    exists tasks, preprocess iter c p sch cls = Ok tasks /\
      queries c p queried tasks = Ok (map (fun params => energy c (combine (firstn p params) (skipn p params))) queried).
Proof. intros iter c p sch cls queried P V L Pm Hs Hp. apply queries_ok; auto. Qed.
Print Assumptions C55_queries_return_the_energy.

(** The networks can always be built, and their sizes do not depend on the rest of the problem: every edge is a copy of a variable
    that can be reached from the clause in at most [p] steps. *)
Inductive reachable (c : csp) (cl : list Z) : nat -> Z -> Prop :=
| here q i : In q cl -> reachable c cl i q
| there q r d i : reachable c cl i q -> In d (map fst c) -> In q d -> In r d -> reachable c cl (S i) r.
Theorem C55_network_is_the_light_cone :
  forall (iter : list Z -> list Z) (c : csp) (p : nat) (cl : list Z),
    (forall l, Permutation (iter l) l) -> valid_csp c -> 0 < p ->
    exists n k, clause_net iter c p cl = Ok (n, k) /\
      forall e, In e (keys (edges n)) -> exists i q, e = qname i q /\ (Z.abs i <= Z.of_nat p)%Z /\ reachable c cl p q.
Proof.
  intros iter c p cl P V L. destruct (@clause_net_run iter c P V cl p L) as (n & E & B). eexists n, _. split; [exact E|].
  assert (Cn : forall i q, In q (cone c cl i) -> reachable c cl i q).
  { assert (M : forall i q, reachable c cl i q -> reachable c cl (S i) q).
    { induction 1; [constructor; auto|econstructor 2; eauto]. }
    induction i as [|i IH]; intros q I; simpl in I.
    - apply (proj1 (dedup_In _ _)) in I. constructor; auto.
    - apply in_app_iff in I as [I|I]; auto. apply grow_In in I as (_ & d & Id & T & Iq). apply touches_In in T as (r & Ir & Jr).
      econstructor 2; eauto. }
  intros e I. apply (QaoaNet.bk_edges B) in I. apply (QaoaValue.final_legs iter c P cl e L) in I.
  apply QaoaValue.below_In in I as (i & Li & I). apply QaoaValue.names_In in I as (j & q & -> & Ej & Iq); auto; [|lia].
  assert (Rq : reachable c cl p q) by (apply Cn, cone_mono with i; auto; lia).
  destruct (QaoaValue.lab_shape iter c cl p j q) as [->| ->]; eexists _, q; split; [reflexivity| |reflexivity|]; split; auto; lia.
Qed.
Print Assumptions C55_network_is_the_light_cone.

(** The energy is an average of costs: a real number that is never below the best cost nor above the worst. *)
Theorem C55_energy_between_best_and_worst :
  forall (c : csp) (angles : list (R * R)) (lo hi : R),
    (forall x : bits, (forall q, In (x q) [0; 1]) -> (lo <= cost c x <= hi)%R) ->
    exists e, energy c angles = cr e /\ (lo <= e <= hi)%R.
Proof. exact energy_bounds. Qed.
Print Assumptions C55_energy_between_best_and_worst.

(** optimum, which tries all assignments, returns the least cost when the variables are 0, 1, ..., n-1, and then no angles give
    an energy below it. *)
Theorem C55_optimum_is_the_least_cost :
  forall c : csp, (forall q, In q (variables c) -> (0 <= q < Z.of_nat (length (variables c)))%Z) ->
    exists v x, optimum c = Ok (v, x) /\ length x = length (variables c) /\ v = cost c (fun q => nth (Z.to_nat q) x 0) /\
      (forall y : bits, (forall q, In (y q) [0; 1]) -> (v <= cost c y)%R) /\
      forall angles e, energy c angles = cr e -> (v <= e)%R.
Proof.
  intros c H. destruct (optimum_ok c H) as (x & E & L & F & M). exists (cost c (of_tuple x)), x.
  split; auto. split; auto. split; auto. split; auto. intros angles e Ee.
  assert (U : exists hi, forall y : bits, (forall q, In (y q) [0; 1]) -> (cost c y <= hi)%R) by apply cost_bounded.
  destruct U as (hi & U). destruct (@energy_bounds c angles (cost c (of_tuple x)) hi) as (e' & E' & Lo & _).
  { intros y By. auto. }
  rewrite Ee in E'. assert (e = e') by (inversion E'; auto). subst. auto.
Qed.
Print Assumptions C55_optimum_is_the_least_cost.
(** With other variables it looks up positions that the assignments do not have. *)
Definition cut (v : list nat) : R := match v with [a; b] => if a =? b then 0%R else 1%R | _ => 0%R end.
Theorem C55_optimum_other_labels_refuted : optimum [([1; 2]%Z, cut)] = Err IndexError.
Proof. reflexivity. Qed.
Print Assumptions C55_optimum_other_labels_refuted.

(** MaxCut on a path of four vertices, one layer, an edge sliced in every task *)
Definition path4 : csp := [([0; 1]%Z, cut); ([1; 2]%Z, cut); ([2; 3]%Z, cut)].
Definition slice_one (cl : list Z) : scheme := Scheme [] [qname 1 (hd 0%Z cl)] 1 1.
Example C55_somewhere :
  valid_csp path4 /\ Permutation (rev (map fst path4)) (map fst path4) /\
  (forall cl n k, In cl (rev (map fst path4)) -> clause_net (@rev Z) path4 1 cl = Ok (n, k) -> usable_scheme n (slice_one cl)) /\
  (exists n, clause_net (@rev Z) path4 1 [0; 1]%Z = Ok (n, 3)) /\
  (forall x : bits, (forall q, In (x q) [0; 1]) -> (0 <= cost path4 x <= 3)%R) /\
  (forall q, In q (variables path4) -> (0 <= q < Z.of_nat (length (variables path4)))%Z).
Proof.
  split; [|split; [symmetry; apply Permutation_rev|split; [|split; [|split]]]].
  - unfold valid_csp. vm_compute. repeat constructor; simpl; intuition discriminate.
  - intros cl n k I E.
    assert (Hb : match clause_net (@rev Z) path4 1 cl with
                 | Ok (n, _) => mem (qname 1 (hd 0%Z cl)) (keys (edges n)) | Err _ => false end = true)
      by (vm_compute in I; destruct I as [<-|[<-|[<-|[]]]]; vm_compute; reflexivity).
    rewrite E in Hb.
    split; [|split; [left; reflexivity|unfold fits_memory, slice_one; cbn [s_cost s_memory]; lia]].
    intros e [<-|[]]. apply mem_In. exact Hb.
  - assert (Hb : match clause_net (@rev Z) path4 1 [0; 1]%Z with Ok (_, k) => k =? 3 | Err _ => false end = true)
      by (vm_compute; reflexivity).
    destruct (clause_net (@rev Z) path4 1 [0; 1]%Z) as [[n k]|]; [|discriminate].
    apply Nat.eqb_eq in Hb. subst k. now exists n.
  - intros x _. unfold path4, cost, cut. cbn [fold_right fst snd map].
    repeat match goal with |- context [if ?b then _ else _] => destruct b end; lra.
  - intros q I. vm_compute in I. destruct I as [<-|[<-|[<-|[<-|[]]]]]; vm_compute; intuition discriminate.
Qed.
