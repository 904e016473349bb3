(** * Theorems about contraction schemes and costs (properties C29, C30) *)
From Coq Require Import List Arith ZArith String Lia Bool.
From Verif Require Import Base OrderSpec ModelScheme.
Import ListNotations.
Set Implicit Arguments.

(** ** C29: dump and load *)
Fixpoint tuplize_name (n : name) : tuplize (name_json n) = Ok n.
Proof.
  destruct n as [|z|s|l]; try reflexivity. cbn [name_json tuplize].
  assert (E : (fix go l := match l with [] => Ok [] | x :: r => do y <- tuplize x; do ys <- go r; Ok (y :: ys) end) (map name_json l) = Ok l).
  { induction l as [|x r IH]; [reflexivity|]. cbn [map]. rewrite tuplize_name. cbn [bind]. rewrite IH. reflexivity. }
  rewrite E. reflexivity.
Qed.
Lemma mapM_tuplize l : mapM tuplize (map name_json l) = Ok l.
Proof. induction l as [|x r IH]; [reflexivity|]. cbn [map mapM]. rewrite tuplize_name. cbn [bind]. rewrite IH. reflexivity. Qed.

Theorem C29_dump_load :
  forall s : cscheme, Forall (fun st => List.length (fst st) = 2) (sc_order s) -> load (dump s) = Ok s.
Proof.
  intros [o sl [cs ct ck]] H. unfold load, dump, field. cbn [sc_order sc_slices sc_cost k_s k_t k_k] in *.
  
  set (cs' := JArr (map (fun st : ostep => JArr [JArr (map name_json (fst st)); name_json (snd st)]) o)).
  set (ss' := JArr (map name_json sl)). set (co' := JArr [JInt cs; JInt ct; JInt (Z.of_nat ck)]).
  change (get "contractions"%string _) with (Some cs'). change (get "slices"%string _) with (Some ss'). change (get "cost"%string _) with (Some co').
  cbn [bind]. unfold cs', ss', co'.
  assert (E : mapM load_step (map (fun st : ostep => JArr [JArr (map name_json (fst st)); name_json (snd st)]) o) = Ok o).
  { induction H as [|[ops r] q Hl H IH]; [reflexivity|]. cbn [map mapM fst snd] in *. destruct ops as [|a [|b [|]]]; try discriminate.
    cbn [map load_step]. rewrite !tuplize_name. cbn [bind]. rewrite IH. reflexivity. }
  rewrite E. cbn [bind]. rewrite mapM_tuplize. cbn [bind]. rewrite Nat2Z.id. reflexivity.
Qed.
Print Assumptions C29_dump_load.
Definition nested_scheme : cscheme :=
  CScheme [([NS "a"; NT [NS "b"; NT [NI 3; NT []]; NN]], NT [NS "#"; NI 1]); ([NT [NS "#"; NI 1]; NI (-2)], NS "#")]
          [NT [NI 0; NS "e"]; NS "f"] (CCost 1024 64 2).
Example C29_somewhere :
  Forall (fun st => List.length (fst st) = 2) (sc_order nested_scheme) /\ load (dump nested_scheme) = Ok nested_scheme.
Proof. split; [repeat constructor|vm_compute; reflexivity]. Qed.
(** orders with a step of one operand (KHP simplification makes them, see C21) are written and cannot be read *)
Theorem C29_single_operand_refuted : ~ (forall s : cscheme, load (dump s) = Ok s).
Proof. intros H. specialize (H (CScheme [([NS "a"], NS "#")] [] no_cost)). vm_compute in H. discriminate. Qed.
Print Assumptions C29_single_operand_refuted.

(** ** C30: costs *)
Open Scope Z_scope.
Lemma lt_total a b : cost_lt a b = true <-> total a < total b.
Proof. unfold cost_lt. apply Z.ltb_lt. Qed.
Lemma eq_total a b : cost_eq a b = true <-> total a = total b /\ k_t a = k_t b.
Proof. unfold cost_eq. rewrite andb_true_iff, !Z.eqb_eq. reflexivity. Qed.
Definition tied (a b : ccost) : Prop := cost_lt a b = false /\ cost_lt b a = false.
Lemma tied_total a b : tied a b <-> total a = total b.
Proof. unfold tied, cost_lt. rewrite !Z.ltb_ge. lia. Qed.

(** < is a strict weak order *)
Theorem C30_less_strict_weak :
  (forall a, cost_lt a a = false) /\
  (forall a b, cost_lt a b = true -> cost_lt b a = false) /\
  (forall a b c, cost_lt a b = true -> cost_lt b c = true -> cost_lt a c = true) /\
  (forall a b c, tied a b -> tied b c -> tied a c).
Proof.
  split; [intros a; apply Z.ltb_irrefl|]. split; [intros a b H; apply lt_total in H; apply Z.ltb_ge; lia|].
  split; [intros a b c; rewrite !lt_total; lia|]. intros a b c. rewrite !tied_total. congruence.
Qed.
Print Assumptions C30_less_strict_weak.
(** == is an equivalence compatible with < *)
Theorem C30_equal_compatible :
  (forall a, cost_eq a a = true) /\
  (forall a b, cost_eq a b = true -> cost_eq b a = true) /\
  (forall a b c, cost_eq a b = true -> cost_eq b c = true -> cost_eq a c = true) /\
  (forall a b, cost_eq a b = true -> tied a b) /\
  (forall a b c, cost_eq a b = true -> cost_lt a c = cost_lt b c /\ cost_lt c a = cost_lt c b).
Proof.
  split; [intros a; apply eq_total; auto|]. split; [intros a b; rewrite !eq_total; intuition|].
  split; [intros a b c; rewrite !eq_total; intuition congruence|].
  split; [intros a b H; apply eq_total in H; apply tied_total; tauto|].
  intros a b c H. apply eq_total in H as [H _]. unfold cost_lt. now rewrite H.
Qed.
Print Assumptions C30_equal_compatible.
(** adding: flops add up, the largest intermediate is kept; commutative, associative, with a neutral element,
    and monotone.  For costs of unsliced contractions the totals add up. *)
Theorem C30_addition :
  (forall a b, k_s (cost_add a b) = k_s a + k_s b /\ k_t (cost_add a b) = Z.max (k_t a) (k_t b)) /\
  (forall a b, k_s (cost_iadd a b) = k_s a + k_s b /\ k_t (cost_iadd a b) = Z.max (k_t a) (k_t b) /\ k_k (cost_iadd a b) = k_k a) /\
  (forall a b, cost_add a b = cost_add b a) /\
  (forall a b c, cost_add a (cost_add b c) = cost_add (cost_add a b) c) /\
  (forall a, 0 <= k_t a -> k_k a = 0%nat -> cost_add no_cost a = a) /\
  (forall a b, k_k a = 0%nat -> k_k b = 0%nat -> total (cost_add a b) = total a + total b) /\
  (forall a b c, k_k a = 0%nat -> k_k b = 0%nat -> k_k c = 0%nat -> cost_lt (cost_add a c) (cost_add b c) = cost_lt a b) /\
  (forall a b, k_k a = 0%nat -> cost_iadd a b = cost_add a b).
Proof.
  split; [auto|]. split; [auto|]. split; [intros a b; unfold cost_add; f_equal; lia|].
  split; [intros a b c; unfold cost_add; cbn [k_s k_t]; f_equal; lia|].
  split; [intros [s t k] H E; cbn [k_t k_k] in *; subst k; unfold cost_add; cbn [k_s k_t no_cost]; f_equal; lia|].
  assert (T : forall a, k_k a = 0%nat -> total a = k_s a) by (intros a H; unfold total; rewrite H; simpl; lia).
  split; [intros a b Ha Hb; rewrite !T; auto|]. split.
  - intros a b c Ha Hb Hc. unfold cost_lt. rewrite !T; auto. cbn [cost_add k_s].
    destruct (Z.ltb_spec (k_s a) (k_s b)), (Z.ltb_spec (k_s a + k_s c) (k_s b + k_s c)); auto; lia.
  - intros a b H. unfold cost_add, cost_iadd. rewrite H. reflexivity.
Qed.
Print Assumptions C30_addition.
Example C30_somewhere :
  cost_lt (CCost 3 8 1) (CCost 7 4 0) = true /\ cost_eq (CCost 4 8 1) (CCost 8 8 0) = true /\
  tied (CCost 4 8 1) (CCost 8 4 0) /\ cost_add (CCost 3 8 0) (CCost 7 4 0) = CCost 10 8 0.
Proof. vm_compute. auto. Qed.
(** costs neither less, greater nor equal exist: == also compares the largest intermediate, < does not *)
Theorem C30_trichotomy_refuted :
  ~ (forall a b, cost_lt a b = true \/ cost_eq a b = true \/ cost_lt b a = true).
Proof. intros H. destruct (H (CCost 4 8 1) (CCost 8 4 0)) as [E|[E|E]]; vm_compute in E; discriminate. Qed.
Print Assumptions C30_trichotomy_refuted.
(** adding costs of sliced contractions forgets the slices: the totals do not add up *)
Theorem C30_sliced_addition_refuted :
  ~ (forall a b, total (cost_add a b) = total a + total b).
Proof. intros H. specialize (H (CCost 1 1 1) (CCost 1 1 1)). vm_compute in H. discriminate. Qed.
Print Assumptions C30_sliced_addition_refuted.
