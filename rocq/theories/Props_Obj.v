(** * C49, C50: copies and index fixing of Tensor and TensorSum objects *)
From Verif Require Import Base Scalar NetSpec ModelArray ModelVal ModelObj CopyProofs ObjProofs ObjProofs2 ObjFix Examples.
Set Implicit Arguments.

(** no statement of the program is [x += y] on a tensor *)
Definition no_iadd {S} (p : list (stmt S)) : Prop := forall i u, ~ In (XIadd i u) p.
Definition no_fix {S} (p : list (stmt S)) : Prop := forall i j v, ~ In (XFix i j v) p.
Lemma may_all {S} f w (p : list (stmt S)) : (f = false -> no_fix p) -> (w = false -> no_iadd p) -> forallb (may f w) p = true.
Proof.
  intros F W. apply forallb_forall. intros x I. destruct x; simpl; auto.
  - destruct f; auto. elim (F eq_refl i j v I).
  - destruct w; auto. elim (W eq_refl i u I).
Qed.
Lemma env_one (G : nat -> Prop) r : G r -> envG G [Some r].
Proof. intros I [|[|i]] q E; simpl in E; try discriminate. injection E as <-; auto. Qed.

(** After d = copy.deepcopy(x) of any tensor or (nested) sum, d looks like x; no program that starts
    from d changes any object that existed before, and no program that starts from the objects that
    existed before changes d. *)
Theorem C49_deepcopy :
  forall (S : scalar) (s s' : store_ S) (x d k : nat),
    valid s -> x < length (objs s) -> deep k x s = (s', Ok d) ->
    view k s x <> None /\ view k s' d = view k s x /\
    (forall p limit h y, y < length (objs s) -> view h (exec_all limit p s' [Some d]) y = view h s y) /\
    (forall p limit h vs, (forall i r, var vs i = Some r -> r < length (objs s)) ->
       view h (exec_all limit p s' vs) d = view h s' d).
Proof.
  intros S s s' x d k V L E. destruct (deep_spec k V L E) as (G & B & v & W1 & W2). pose proof (grown_len G) as [LE1 LE2].
  split; [congruence|]. split; [congruence|]. split.
  - intros p limit h y Ly. rewrite <- (grown_view h G V Ly).
    apply (@frame S true true (fun r => length (objs s) <= r) (below (length (objs s))) (below (length (bufs s))) s'); unfold below; auto; try (intros; lia).
    + apply may_all; discriminate.
    + apply env_one; lia.
    + intros r o Lr Q. rewrite (ag_o (grown_agree G)) in Q by exact Lr. exact (V _ _ Lr Q).
    + intros r o Lr Q. assert (U : r < length (objs s')) by (apply nth_error_Some; congruence).
      pose proof (gr_new G (conj Lr U) Q) as Hh. destruct o as [[|a fx|c]|ts]; simpl in *; auto.
      * intros _ A. unfold between in Hh. lia.
      * intros _ y' q Iq. apply Hh in Iq. apply Iq.
  - intros p limit h vs Hv.
    apply (@frame S true true (fun r => r < length (objs s) \/ length (objs s') <= r)
             (between (length (objs s)) (length (objs s'))) (between (length (bufs s)) (length (bufs s'))) s'); unfold between; auto; try (intros; lia).
    + apply may_all; discriminate.
    + intros i r A. left. eauto.
    + exact (gr_new G).
    + intros r o [Lr|Lr] Q.
      * rewrite (ag_o (grown_agree G)) in Q by exact Lr. pose proof (V _ _ Lr Q) as Hh. destruct o as [[|a fx|c]|ts]; simpl in *; auto.
        -- intros _ A. unfold below in Hh. lia.
        -- intros _ y' q Iq. left. exact (Hh _ _ Iq).
      * apply nth_error_None in Lr. congruence.
Qed.
Print Assumptions C49_deepcopy.

(** After c = t.copy() of a tensor, no program without += that starts from c changes t or any other
    object, and no program without += that starts from the old objects changes c. *)
Theorem C49_tensor_copy :
  forall (S : scalar) (s s' : store_ S) (t c k : nat) (d : data S),
    valid s -> nth_error (objs s) t = Some (OTensor d) -> copy_ t s = (s', Ok c) ->
    view (Datatypes.S k) s' c = view (Datatypes.S k) s t /\
    (forall p limit h y, no_iadd p -> y < length (objs s) -> view h (exec_all limit p s' [Some c]) y = view h s y) /\
    (forall p limit h vs, no_iadd p -> (forall i r, var vs i = Some r -> r < length (objs s)) ->
       view h (exec_all limit p s' vs) c = view h s' c).
Proof.
  intros S s s' t c k d V N E.
  assert (L : t < length (objs s)) by (apply nth_error_Some; congruence). pose proof (V _ _ L N) as Hd.
  assert (X : exists d' nb, objs s' = objs s ++ [OTensor d'] /\ bufs s' = bufs s ++ nb /\ c = length (objs s) /\
              dread s' d' = dread s d /\ match d' with DArr a _ => a < length (bufs s') | _ => True end).
  { unfold copy_ in E. rewrite N in E. destruct d as [|a fx|q]; injection E as <- <-.
    - exists DNone, []. rewrite app_nil_r. auto.
    - exists (DArr a fx), []. rewrite app_nil_r. repeat split; auto.
    - exists (DArr (length (bufs s)) []), [nd_scalar q]. repeat split; auto.
      + simpl. unfold arr. cbn [bufs]. rewrite nth_error_app2, Nat.sub_diag by lia. reflexivity.
      + cbn [bufs]. rewrite app_length; simpl; lia. }
  destruct X as (d' & nb & Eo & Eb & Ec & Ed & Ea).
  assert (Ag : agree (below (length (objs s))) (below (length (bufs s))) s s').
  { split; unfold below; intros; [rewrite Eo|rewrite Eb]; now rewrite nth_error_app1. }
  assert (Nc : nth_error (objs s') c = Some (OTensor d')).
  { rewrite Eo, Ec, nth_error_app2, Nat.sub_diag by lia. reflexivity. }
  assert (Lo : length (objs s') = Datatypes.S (length (objs s))) by (rewrite Eo, app_length; simpl; lia).
  assert (Lb : length (bufs s) <= length (bufs s')) by (rewrite Eb, app_length; lia).
  split; [rewrite !view_S, Nc, N, Ed; reflexivity|]. split.
  - intros p limit h y Hp Ly. rewrite <- (view_agree V Ag h y Ly).
    apply (@frame S true false (fun r => length (objs s) <= r) (below (length (objs s))) (below (length (bufs s))) s'); unfold below; auto; try (intros; lia).
    + apply may_all; [discriminate|auto].
    + apply env_one; lia.
    + intros r o Lr Q. rewrite (ag_o Ag) in Q by exact Lr. exact (V _ _ Lr Q).
    + intros r o Lr Q. assert (U : r < length (objs s')) by (apply nth_error_Some; congruence). assert (r = c) by lia. subst r.
      rewrite Nc in Q. injection Q as <-. destruct d'; simpl; auto. discriminate.
  - intros p limit h vs Hp Hv.
    apply (@frame S true false (fun r => r <> c) (fun r => r = c) (below (length (bufs s'))) s'); unfold below; auto; try (intros; lia).
    + apply may_all; [discriminate|auto].
    + intros i r A. specialize (Hv i r A). lia.
    + intros r o -> Q. rewrite Nc in Q. injection Q as <-. destruct d'; simpl; auto.
    + intros r o Nr Q. assert (U : r < length (objs s')) by (apply nth_error_Some; congruence).
      assert (Lr : r < length (objs s)) by lia. rewrite (ag_o Ag) in Q by exact Lr. pose proof (V _ _ Lr Q) as Hh.
      destruct o as [[|a fx|q]|ts]; simpl in *; auto; try discriminate. intros _ y q Iq. specialize (Hh _ _ Iq). unfold below in Hh. lia.
Qed.
Print Assumptions C49_tensor_copy.

(** views with enough fuel agree *)
Lemma view_more {S} k : forall (s : store_ S) r v, view k s r = Some v -> view (Datatypes.S k) s r = Some v.
Proof.
  induction k as [|k IH]; intros s r v E; [discriminate|]. rewrite view_S in E |- *.
  destruct (nth_error (objs s) r) as [[d|ts]|]; auto.
  destruct (view_terms (view k s) ts) as [vs|] eqn:Q; [|discriminate]. injection E as <-.
  assert (T : forall ts vs, view_terms (view k s) ts = Some vs -> view_terms (view (Datatypes.S k) s) ts = Some vs).
  { clear - IH. induction ts as [|[x q] r IHt]; intros vs E; cbn [view_terms] in *; auto.
    destruct (view k s q) eqn:Vq; [|discriminate]. apply IH in Vq. rewrite Vq.
    fold (view_terms (S := S) (view k s)) in E. fold (view_terms (S := S) (view (Datatypes.S k) s)).
    destruct (view_terms (view k s) r) as [ws|]; [|discriminate]. rewrite (IHt ws); auto. }
  now rewrite (T _ _ Q).
Qed.

(** After c = s.copy() of a sum, adding, replacing and removing terms of c (and of new objects) changes
    no old object; doing so with the old sum does not change c. *)
Theorem C49_sum_copy :
  forall (S : scalar) (s s' : store_ S) (x c k : nat) (ts : list (name * oref)),
    valid s -> nth_error (objs s) x = Some (OSum ts) -> view k s x <> None -> copy_ x s = (s', Ok c) ->
    view k s' c = view k s x /\
    (forall p limit h y, no_iadd p -> no_fix p -> y < length (objs s) -> view h (exec_all limit p s' [Some c]) y = view h s y) /\
    (forall p limit h, no_iadd p -> no_fix p -> view h (exec_all limit p s' [Some x]) c = view h s' c).
Proof.
  intros S s s' x c k ts V N W E. unfold copy_ in E. rewrite N in E. injection E as <- <-.
  assert (L : x < length (objs s)) by (apply nth_error_Some; congruence). pose proof (V _ _ L N) as Hts. simpl in Hts.
  set (c := length (objs s)). set (s' := St _ _).
  assert (Ag : agree (below (length (objs s))) (below (length (bufs s))) s s').
  { split; unfold below, s'; cbn [objs bufs]; intros; [now rewrite nth_error_app1|auto]. }
  assert (Nc : nth_error (objs s') c = Some (OSum ts)).
  { unfold s', c; cbn [objs]. rewrite nth_error_app2, Nat.sub_diag by lia. reflexivity. }
  assert (Lo : length (objs s') = Datatypes.S c) by (unfold s', c; cbn [objs]; rewrite app_length; simpl; lia).
  assert (VW : forall h y, y < length (objs s) -> view h s' y = view h s y) by (intros h y Ly; apply (view_agree V Ag); exact Ly).
  split; [|split].
  - destruct k as [|k]; auto. rewrite !view_S, Nc, N. f_equal. apply view_terms_ext. intros y q I. apply VW. exact (Hts _ _ I).
  - intros p limit h y H1 H2 Ly. rewrite <- (VW h y Ly).
    apply (@frame S false false (fun r => length (objs s) <= r) (below (length (objs s))) (below (length (bufs s))) s'); unfold below; auto; try (intros; unfold c in *; lia).
    + apply may_all; auto.
    + apply env_one; unfold c; lia.
    + intros r o Lr Q. rewrite (ag_o Ag) in Q by exact Lr. exact (V _ _ Lr Q).
    + intros r o Lr Q. destruct o as [[|a fx|q]|l]; simpl; auto; discriminate.
  - (* the least depth at which the sum can be seen *)
    assert (M : exists k0, view k0 s x = None /\ view (Datatypes.S k0) s x <> None).
    { clear - W. induction k as [|k IH]; [elim W; reflexivity|]. destruct (view k s x) eqn:Q; [apply IH; congruence|]. eauto. }
    destruct M as (k0 & M0 & M1). intros p limit h H1 H2.
    assert (Tk : forall y q, In (y, q) ts -> view k0 s q <> None).
    { intros y q I. rewrite view_S, N in M1. destruct (view_terms (view k0 s) ts) eqn:Q; [|elim M1; reflexivity].
      eapply view_terms_In; eauto. }
    apply (@frame S false false (fun r => r = x \/ c < r) (fun r => r = c \/ view k0 s r <> None) (below (length (bufs s))) s'); auto; try (intros; lia).
    + intros r [->|A] [C|C]; try (unfold c in *; lia); try congruence. apply C.
      destruct (nth_error (objs s) r) eqn:Q; [assert (r < length (objs s)) by (apply nth_error_Some; congruence); unfold c in A; lia|].
      destruct k0; [reflexivity|]. now rewrite view_S, Q.
    + apply may_all; auto.
    + apply env_one; auto.
    + intros r o [->|A] Q.
      * rewrite Nc in Q. injection Q as <-. simpl. intros y q I. right. eauto.
      * assert (Lr : r < length (objs s)).
        { destruct (Nat.lt_ge_cases r (length (objs s))) as [Z|Z]; auto. elim A. apply nth_error_None in Z. destruct k0; [reflexivity|]. now rewrite view_S, Z. }
        rewrite (ag_o Ag) in Q by exact Lr. pose proof (V _ _ Lr Q) as Hh. destruct o as [[|a fx|q]|l]; simpl in *; auto.
        intros y q I. right. destruct k0 as [|k0]; [elim A; reflexivity|]. rewrite view_S, Q in A.
        destruct (view_terms (view k0 s) l) eqn:Z; [|elim A; reflexivity]. pose proof (view_terms_In _ _ _ _ Z I) as Y.
        destruct (view k0 s q) eqn:Yq; [|congruence]. apply view_more in Yq. congruence.
    + intros r o _ Q. destruct o as [[|a fx|q]|l]; simpl; auto; discriminate.
Qed.
Print Assumptions C49_sum_copy.

(** ** Examples: x is the sum of a matrix and a matrix *)
Notation zst := (store_ ZK).
Definition st0 : zst * env :=
  fold_left (exec 100)
    [XTensor (Some (ND (S := ZK) [2; 2] (fun o => match o with [i; j] => Z.of_nat (10 * i + j) | _ => 0%Z end)));
     XTensor (Some (ND (S := ZK) [2; 2] (fun _ => 1%Z)));
     XSum; XAdd 2 a_ 0; XAdd 2 b_ 1] (St [] [], []).
Definition zval (s : zst) (r : nat) (o : list nat) : option Z := option_map (fun t => tval_value t o) (view 100 s r).
Definition after (p : list (stmt ZK)) : zst := exec_all 100 p (fst st0) (snd st0).
Lemma st0_valid : valid (fst st0).
Proof.
  assert (Eo : objs (fst st0) = [OTensor (DArr 0 []); OTensor (DArr 1 []); OSum [(a_, 0); (b_, 1)]]) by (vm_compute; reflexivity).
  assert (Eb : length (bufs (fst st0)) = 2) by (vm_compute; reflexivity).
  unfold valid. rewrite Eo, Eb. intros r o L E. rewrite Eo in E. unfold below in L. simpl in L.
  destruct r as [|[|[|r]]]; [| | |lia]; simpl in E; injection E as <-; unfold held, below; simpl; try lia.
  intros x q [Q|[Q|[]]]; injection Q as <- <-; lia.
Qed.
Example C49_somewhere :
  valid (fst st0) /\ zval (fst st0) 2 [1; 1] = Some 12%Z /\
  (exists s' d, deep 100 2 (fst st0) = (s', Ok d)) /\
  (exists s' c, copy_ 2 (fst st0) = (s', Ok c)) /\ (exists s' c, copy_ 0 (fst st0) = (s', Ok c)).
Proof.
  split; [apply st0_valid|]. split; [vm_compute; reflexivity|].
  split; [|split]; (eexists; eexists; cbn; reflexivity).
Qed.

(** += on a copy of a tensor changes the tensor, *)
Theorem C49_iadd_refuted :
  zval (after [XCopy 0]) 0 [1; 1] = Some 11%Z /\
  zval (after [XCopy 0; XIadd 3 (ND (S := ZK) [2; 2] (fun _ => 100%Z))]) 0 [1; 1] = Some 111%Z.
Proof. split; vm_compute; reflexivity. Qed.
Print Assumptions C49_iadd_refuted.
(** also on a copy that has been fixed since: it is a view of the same numbers; *)
Theorem C49_iadd_view_refuted :
  zval (after [XCopy 0; XFix 3 0 1; XIadd 3 (ND (S := ZK) [2] (fun _ => 100%Z))]) 0 [1; 1] = Some 111%Z /\
  zval (after [XCopy 0; XFix 3 0 1; XIadd 3 (ND (S := ZK) [2] (fun _ => 100%Z))]) 0 [0; 1] = Some 1%Z.
Proof. split; vm_compute; reflexivity. Qed.
Print Assumptions C49_iadd_view_refuted.
(** and fixing an index of a copy of a sum fixes the terms of the sum. *)
Theorem C49_sum_fix_refuted :
  zval (after [XCopy 2; XFix 3 0 1]) 2 [1] = Some 12%Z /\
  zval (after [XFix 2 0 1]) 2 [1] = Some 12%Z /\
  ~ (forall s' q, fix_ 100 2 0 1 (fst st0) = (s', Ok q) -> zval s' 2 [1; 1] = zval (fst st0) 2 [1; 1] /\ view 100 s' 2 = view 100 (fst st0) 2).
Proof.
  split; [vm_compute; reflexivity|]. split; [vm_compute; reflexivity|].
  intros Q. destruct (fix_ 100 2 0 1 (fst st0)) as [s' [q|e]] eqn:E; [|vm_compute in E; discriminate].
  destruct (Q s' q eq_refl) as [_ A]. clear Q. cbn in E. injection E as <- <-. cbn in A. injection A as A. discriminate A.
Qed.
Print Assumptions C49_sum_fix_refuted.

(** * C50: fixing an index of a sum *)
(** If no object occurs twice among the terms (and their terms), fix_index returns an object whose value
    is the value of the sum with the index fixed. *)
Theorem C50_sum_fix :
  forall (S : scalar) (s : store_ S) (x k n i v : nat) (t : tval S),
    valid s -> x < length (objs s) -> view k s x = Some t -> NoDup (parts k s x) -> fits n i v t -> i <= n ->
    exists s' q t', fix_ k x i v s = (s', Ok q) /\ view k s' q = Some t' /\
      forall o, length o = n -> tval_value t' o = tval_value t (ins_nth i v o).
Proof.
  intros S s x k n i v t V L W ND F Hi. destruct (@fix_spec S n i v Hi k x s t V L W ND F) as (s' & q & t' & A & B & C & _). eauto 6.
Qed.
Print Assumptions C50_sum_fix.
Example C50_somewhere :
  exists t, view 100 (fst st0) 2 = Some t /\ NoDup (parts 100 (fst st0) 2) /\ fits 1 0 1 t /\ tval_value t [1; 1] = 12%Z.
Proof.
  eexists. split; [cbn; reflexivity|]. split; [apply nodupb_NoDup; vm_compute; reflexivity|]. split; [|vm_compute; reflexivity].
  cbn. repeat split; exists 2; split; auto.
Qed.
(** A tensor that occurs twice is fixed twice. *)
Theorem C50_shared_term_refuted :
  let s := after [XSum; XAdd 3 a_ 0; XAdd 3 b_ 0] in
  zval s 3 [1; 0] = Some 20%Z /\ fst (exec 100 (s, [Some 3]) (XFix 0 0 1)) <> s /\
  zval (fst (exec 100 (s, [Some 3]) (XFix 0 0 1))) 4 [0] = Some 22%Z /\
  zval (fst (exec 100 (s, [Some 3]) (XFix 0 0 1))) 4 [1] = Some 22%Z.
Proof.
  cbv zeta. split; [vm_compute; reflexivity|]. split; [|split; vm_compute; reflexivity].
  intros Q. apply (f_equal (fun s => length (objs s))) in Q. vm_compute in Q. discriminate Q.
Qed.
Print Assumptions C50_shared_term_refuted.
