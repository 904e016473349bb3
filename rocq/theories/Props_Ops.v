(** Properties of the operators on tensor-valued objects: C16, C17, C18. *)
From Verif Require Import Base Scalar NetSpec Sums ModelArray ModelTN TNSpec ModelVal OpsSpec ModelOps OpsProofs
  OpsValue ModelHist Examples.
Set Implicit Arguments.

(** ** C16: the operators act on values as the tensor operations.
    An object is given with its identifier; each theorem asks that the two operands are different
    objects.  [complete] objects have all their tensors, at any depth of nesting. *)

Theorem C16_scale (S : scalar) (c : S) (t : tval S) i j dims :
  i <> j -> tval_shape t = Some (map Some dims) ->
  exists v, v_scale c j (i, t) = Ok v /\ tval_shape v = Some (map Some dims) /\
            (forall o, in_shape dims o = true -> tval_value v o = (c * tval_value t o)%K) /\
            (complete t -> complete v).
Proof.
  intros Ne Sh. destruct (@mul_scalar_r S i j t (VTensor (Some (nd_scalar c))) dims Ne Sh eq_refl) as (v & E1 & E2 & E3 & E4).
  exists v. split; [exact E1|]. split; [exact E2|]. split.
  - intros o I. rewrite (E3 o I). apply kmul_comm.
  - intros C. apply E4; auto. constructor.
Qed.
Print Assumptions C16_scale.

Theorem C16_neg (S : scalar) (t : tval S) i j dims :
  i <> j -> tval_shape t = Some (map Some dims) ->
  exists v, v_neg j (i, t) = Ok v /\ tval_shape v = Some (map Some dims) /\
            (forall o, in_shape dims o = true -> tval_value v o = (- tval_value t o)%K) /\
            (complete t -> complete v).
Proof.
  intros Ne Sh. destruct (@C16_scale S (kopp k1) t i j dims Ne Sh) as (v & E1 & E2 & E3 & E4).
  exists v. repeat split; auto. intros o I. rewrite (E3 o I). apply kopp_one_mul.
Qed.
Print Assumptions C16_neg.

Theorem C16_add (S : scalar) (a b : tval S) i j dims :
  i <> j -> tval_shape a = Some (map Some dims) -> tval_shape b = Some (map Some dims) ->
  exists v, v_add (i, a) (j, b) = Ok v /\ tval_shape v = Some (map Some dims) /\
            (forall o, tval_value v o = (tval_value a o + tval_value b o)%K) /\
            (complete a -> complete b -> complete v).
Proof. apply add_value. Qed.
Print Assumptions C16_add.

Theorem C16_sub (S : scalar) (a b : tval S) i j k l dims :
  i <> l -> j <> k -> tval_shape a = Some (map Some dims) -> tval_shape b = Some (map Some dims) ->
  exists v, v_sub (i, a) (j, b) k l = Ok v /\ tval_shape v = Some (map Some dims) /\
            (forall o, in_shape dims o = true -> tval_value v o = (tval_value a o + - tval_value b o)%K) /\
            (complete a -> complete b -> complete v).
Proof.
  intros Ne Ne' Sa Sb. destruct (@C16_neg S b j k dims Ne' Sb) as (m & E1 & E2 & E3 & E4).
  destruct (@C16_add S a m i l dims Ne Sa E2) as (v & F1 & F2 & F3 & F4).
  exists v. unfold v_sub. rewrite E1. cbn [bind]. repeat split; auto.
  intros o I. rewrite F3, (E3 o I). reflexivity.
Qed.
Print Assumptions C16_sub.

Theorem C16_conjugate (S : scalar) (t : tval S) : complete t ->
  exists v, v_conj t = Ok v /\ tval_shape v = tval_shape t /\
            (forall o, tval_value v o = kconj (tval_value t o)) /\ complete v.
Proof.
  intros C. destruct (complete_conj C) as (w & E & Cw). exists w.
  destruct (v_conj_value t E) as [H1 H2]. auto.
Qed.
Print Assumptions C16_conjugate.

(** transpose(axes): entry k of the new index is entry axes[k] of the old one *)
Theorem C16_transpose (S : scalar) (t : tval S) i axes dims :
  tval_shape t = Some (map Some dims) -> Permutation axes (seq 0 (length dims)) ->
  exists v, v_transpose (i, t) axes = Ok v /\ tval_shape v = Some (map Some (along axes dims)) /\
            (forall o, in_shape dims o = true -> tval_value v (along axes o) = tval_value t o) /\
            (complete t -> complete v).
Proof. intros Sh P. apply transpose_value; auto. Qed.
Print Assumptions C16_transpose.

Theorem C16_norm_squared (S : scalar) (t : tval S) i j dims :
  i <> j -> tval_shape t = Some (map Some dims) -> complete t ->
  exists v, v_norm_net (i, t) j = Ok v /\
            tval_value v [] = sumf (fun o => tval_value t o * kconj (tval_value t o))%K (indices dims).
Proof.
  intros Ne Sh C. destruct (complete_conj C) as (w & E & _). apply (@norm_value S i j t dims w); auto.
Qed.
Print Assumptions C16_norm_squared.
(** [indices] lists each index of the shape exactly once *)
Theorem C16_indices dims : NoDup (indices dims) /\ forall o, In o (indices dims) <-> in_shape dims o = true.
Proof.
  induction dims as [|d r [N I]]; cbn [indices].
  - split; [constructor; auto; constructor|]. intros [|x o]; simpl; intuition (try discriminate).
  - split.
    + assert (Q : forall l, NoDup l -> NoDup (flat_map (fun i => map (cons i) (indices r)) l)).
      { induction l as [|x l IH]; intros ND; [constructor|]. inversion ND; subst. simpl. apply NoDup_app_iff.
        split; [|split; [auto|]].
        - apply FinFun.Injective_map_NoDup; auto. intros a b E. inversion E; auto.
        - intros o I1 I2. apply in_map_iff in I1 as (q & <- & _). apply in_flat_map in I2 as (y & Iy & I2).
          apply in_map_iff in I2 as (q' & E & _). inversion E; subst. tauto. }
      apply Q, seq_NoDup.
    + intros o. rewrite in_flat_map. split.
      * intros (x & Ix & J). apply in_map_iff in J as (q & <- & J). simpl. apply andb_true_iff. split; [|apply I; auto].
        apply in_seq in Ix. apply Nat.ltb_lt. lia.
      * destruct o as [|x o]; [discriminate|]. simpl. intros J. apply andb_true_iff in J as [J1 J2].
        exists x. split; [apply in_seq; apply Nat.ltb_lt in J1; lia|]. apply in_map, I; auto.
Qed.
Print Assumptions C16_indices.

(** the two ways an addition fails: the same object twice, and different shapes *)
Theorem C16_add_same_object (S : scalar) (a b : tval S) i : v_add (i, a) (i, b) = Err KeyError.
Proof. apply add_same. Qed.
Print Assumptions C16_add_same_object.
Theorem C16_add_mismatch (S : scalar) (a b : tval S) i j da db :
  i <> j -> da <> db -> tval_shape a = Some (map Some da) -> tval_shape b = Some (map Some db) ->
  v_add (i, a) (j, b) = Err ValueError.
Proof. apply add_clash. Qed.
Print Assumptions C16_add_mismatch.

(** a matrix, a network holding a matrix product, and their sum *)
Definition ex_m : ZT := zmat 2 3 [1;2;3;4;5;6]%Z.
Definition ex_prod : ZT :=
  match run [CAddNode a_ (Some [i_; j_]) (zmat 2 2 [1;2;3;4]%Z) false;
             CAddNode b_ (Some [j_; k_]) ex_m false; COpenEdge i_ None; COpenEdge k_ None] empty_tn with
  | (n, _) => VNet n
  end.
Example C16_scale_somewhere :
  NI 1 <> NI 2 /\ tval_shape ex_m = Some (map Some [2; 3]) /\ complete ex_m /\
  match v_scale (S := ZK) 7%Z (NI 2) (NI 1, ex_m) with Ok v => tval_value v [1; 2] = 42%Z | Err _ => False end.
Proof. repeat split; try discriminate; try constructor. Qed.
Example C16_add_somewhere :
  NI 1 <> NI 2 /\ tval_shape ex_m = Some (map Some [2; 3]) /\ tval_shape ex_prod = Some (map Some [2; 3]) /\
  complete ex_prod /\
  match v_add (NI 1, ex_m) (NI 2, ex_prod) with Ok v => tval_value v [0; 0] = 10%Z | Err _ => False end /\
  match v_sub (NI 1, ex_m) (NI 2, ex_prod) (NI 3) (NI 4) with Ok v => tval_value v [0; 0] = (-8)%Z | Err _ => False end.
Proof.
  split; [discriminate|]. split; [reflexivity|]. split; [vm_compute; reflexivity|].
  split; [|split; vm_compute; reflexivity].
  unfold ex_prod. constructor. intros k nd I. vm_compute in I. revert I. intros [E|[E|[]]]; inversion E; subst; eexists; (split; [reflexivity|constructor]).
Qed.
Example C16_transpose_somewhere :
  Permutation [1; 0] (seq 0 2) /\
  match v_transpose (NI 1, ex_prod) [1; 0] with Ok v => tval_value v [2; 1] = tval_value ex_prod [1; 2] | Err _ => False end.
Proof. split; [apply perm_swap|vm_compute; reflexivity]. Qed.
Example C16_norm_somewhere :
  match v_norm_net (NI 1, ex_m) (NI 2) with Ok v => tval_value v [] = 91%Z | Err _ => False end.
Proof. vm_compute. reflexivity. Qed.

(** ** C17: a * b.
    The statement is false of the code: both operands get the edges 0, 1, 2, ..., so the first indices of one
    are identified with the first indices of the other. *)
Theorem C17_tensor_product_refuted :
  ~ (forall (S : scalar) (a b : tval S) i j da db oa ob,
       i <> j -> tval_shape a = Some (map Some da) -> tval_shape b = Some (map Some db) ->
       in_shape da oa = true -> in_shape db ob = true ->
       exists v, v_mul (i, a) (j, b) = Ok v /\
                 tval_value v (oa ++ ob) = (tval_value a oa * tval_value b ob)%K).
Proof.
  intros H.
  destruct (H ZK (zvec [1;2]%Z) (zvec [3;4]%Z) (NI 1) (NI 2) [2] [2] [0] [1]
              ltac:(discriminate) eq_refl eq_refl eq_refl eq_refl) as (v & E & Q).
  vm_compute in E. inversion E; subst v. vm_compute in Q. discriminate.
Qed.
Print Assumptions C17_tensor_product_refuted.

(** operands whose shapes differ in a shared position: the product raises an error *)
Theorem C17_mismatch_refuted :
  exists (a b : tval ZK), tval_shape a = Some [Some 2] /\ tval_shape b = Some [Some 3] /\
                          v_mul (NI 1, a) (NI 2, b) = Err AssertionError.
Proof. exists (zvec [1;2]%Z), (zvec [1;2;3]%Z). vm_compute. auto. Qed.
Print Assumptions C17_mismatch_refuted.

(** What a * b is, for operands of any ranks whose shapes agree where they overlap: the product where
    the overlapping indices are equal, and 0 elsewhere. *)
Theorem C17_exact (S : scalar) (a b : tval S) i j da db :
  i <> j -> tval_shape a = Some (map Some da) -> tval_shape b = Some (map Some db) ->
  let m := Nat.min (length da) (length db) in
  firstn m da = firstn m db ->
  exists v, v_mul (i, a) (j, b) = Ok v /\ tval_shape v = Some (map Some (da ++ db)) /\
            forall oa ob, in_shape da oa = true -> in_shape db ob = true ->
              tval_value v (oa ++ ob) =
              (if eqb (firstn m oa) (firstn m ob) then (tval_value a oa * tval_value b ob)%K else k0).
Proof.
  intros Ne Sa Sb m P. destruct (@mul_value S i j a b da db Ne Sa Sb P) as (v & E1 & E2 & E3 & _).
  exists v. repeat split; auto. intros oa ob Ia Ib. rewrite (E3 oa ob Ia Ib). fold m.
  destruct (eqb (firstn m oa) (firstn m ob)); unfold kdelta; [apply kmul_1_l|apply kmul_0_l].
Qed.
Print Assumptions C17_exact.
Example C17_exact_somewhere :
  let da := [2; 3] in let db := [2] in
  tval_shape ex_m = Some (map Some da) /\ tval_shape (zvec [5;7]%Z) = Some (map Some db) /\
  firstn 1 da = firstn 1 db /\
  match v_mul (NI 1, ex_m) (NI 2, zvec [5;7]%Z) with
  | Ok v => tval_value v [1; 2; 1] = 42%Z /\ tval_value v [1; 2; 0] = 0%Z
  | Err _ => False
  end.
Proof. vm_compute. auto. Qed.

(** the tensor product, when one operand is a scalar *)
Theorem C17_scalar_factor (S : scalar) (a b : tval S) i j da db :
  i <> j -> tval_shape a = Some (map Some da) -> tval_shape b = Some (map Some db) -> da = [] \/ db = [] ->
  exists v, v_mul (i, a) (j, b) = Ok v /\ tval_shape v = Some (map Some (da ++ db)) /\
            forall oa ob, in_shape da oa = true -> in_shape db ob = true ->
              tval_value v (oa ++ ob) = (tval_value a oa * tval_value b ob)%K.
Proof.
  intros Ne Sa Sb Z. assert (M : Nat.min (length da) (length db) = 0) by (destruct Z; subst; simpl; lia).
  destruct (@C17_exact S a b i j da db Ne Sa Sb) as (v & E1 & E2 & E3); [rewrite M; reflexivity|].
  exists v. repeat split; auto. intros oa ob Ia Ib. rewrite (E3 oa ob Ia Ib), M. reflexivity.
Qed.
Print Assumptions C17_scalar_factor.
Example C17_scalar_factor_somewhere :
  match v_mul (NI 1, zscal 3%Z) (NI 2, ex_m) with Ok v => tval_value v [1; 1] = 15%Z | Err _ => False end.
Proof. vm_compute. reflexivity. Qed.

(** ** C18: a TensorSum is the sum of the terms currently in it.
    For every history of requests, failing ones included, whose terms have known dimensions or no known shape at
    all: the answers and the terms present are those of the specification [sum_history], and the value is the sum
    over the names present. *)
Theorem C18_history (S : scalar) (ops : list (sum_op S)) :
  Forall (@op_settled S) ops ->
  let t := fst (sum_run ops (ts_empty S)) in
  exists d, sum_history ops (snd (sum_run ops (ts_empty S))) d /\
    exists ks, NoDup ks /\ (forall k, In k ks <-> d k <> None) /\
      forall o, tval_value (VSum (ts_terms t)) o =
                sumf (fun k => match d k with Some v => tval_value v o | None => k0 end) ks.
Proof.
  intros F t. destruct (run_spec F) as (d & H & A & Inv). fold t in A, Inv. exists d. split; [exact H|].
  exists (keys (ts_terms t)). split; [apply Inv|]. split.
  - intros k. rewrite <- A. rewrite (get_None k (ts_terms t)). split.
    + intros I N. tauto.
    + intros N. destruct (mem k (keys (ts_terms t))) eqn:M; [apply mem_In; auto|].
      exfalso. apply N. intros I. apply mem_In in I. congruence.
  - intros o. cbn [tval_value]. unfold keys. rewrite sumf_map. apply sumf_ext. intros [k v] I. cbn [fst snd].
    rewrite <- A, (@In_get _ _ _ k v _ (proj1 Inv) I). reflexivity.
Qed.
Print Assumptions C18_history.
(** the specification determines the terms and the answers *)
Theorem C18_spec_deterministic (S : scalar) (ops : list (sum_op S)) outs d : sum_history ops outs d ->
  forall outs' d', sum_history ops outs' d' -> outs' = outs /\ forall k, d' k = d k.
Proof. apply sum_history_det. Qed.
Print Assumptions C18_spec_deterministic.

Definition ex_sum_ops : list (sum_op ZK) :=
  [SAdd a_ (zvec [1;2]%Z); SAdd b_ (zvec [1;2;3]%Z); SAdd b_ (zvec [10;20]%Z); SShape; SAdd a_ (zvec [0;0]%Z);
   SUpdate a_ (zvec [5;6]%Z); SRemove c_; SAdd c_ (zvec [100;200]%Z); SRemove b_; SShape].
Example C18_history_somewhere :
  Forall (@op_settled ZK) ex_sum_ops /\
  snd (sum_run ex_sum_ops (ts_empty ZK)) =
    [SDone; SFailed; SDone; SIs (Some [Some 2]); SFailed; SDone; SFailed; SDone; SDone; SIs (Some [Some 2])] /\
  tval_value (VSum (ts_terms (fst (sum_run ex_sum_ops (ts_empty ZK))))) [1] = 206%Z.
Proof.
  split; [|vm_compute; auto].
  repeat (apply Forall_cons; [first [exact I|right; exists [2]; reflexivity|right; exists [3]; reflexivity]|]). apply Forall_nil.
Qed.

(** With dimensions that are only partly known the statement fails: an addition that raises an error leaves its
    dimensions in the cached shape, and a later valid addition is refused. *)
Definition ex_half : ZT := VNet (TN [] [(i_, Edge None None); (j_, Edge (Some 2) None)] [] [i_; j_] 0).
Theorem C18_failed_add_refuted :
  let run ops := snd (sum_run (S := ZK) ops (ts_empty ZK)) in
  run [SAdd a_ ex_half; SAdd c_ (zmat 4 2 [1;2;3;4;5;6;7;8]%Z)] = [SDone; SDone] /\
  run [SAdd a_ ex_half; SAdd b_ (zmat 3 5 []); SAdd c_ (zmat 4 2 [1;2;3;4;5;6;7;8]%Z)] = [SDone; SFailed; SFailed].
Proof. vm_compute. auto. Qed.
Print Assumptions C18_failed_add_refuted.
