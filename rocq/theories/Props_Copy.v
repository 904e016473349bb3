(** * C19: copies are isolated from the original *)
From Verif Require Import Base Scalar NetSpec ModelArray ModelTN TNInv TNOps TNSpec TNDelta ModelHist TNHist TNValue TNExact
  TNEdit ModelVal ModelCopy CopySpec CopyProofs NestSpec Examples Props_Nest.
Set Implicit Arguments.

(** Every program that makes copies and deep copies of a network and of its copies, and edits any of
    them in any order (also with calls that raise), sees what it would see if every copy were an
    independent network, as long as rewire and change_fix are only used on networks that do not share
    lists through copy(). *)
Theorem C19_isolated :
  forall (T : Type) (P : Payload T) (n : tn T) (p : list (action (T := T))),
    allowed [false] p = true ->
    looks (fold_left act p (start n)) = fold_left act_val p [Some n].
Proof.
  intros T P n p A. destruct (start_sound n) as [S E]. rewrite (run_sound _ S A). now rewrite E.
Qed.
Print Assumptions C19_isolated.

(** the network after some edits *)
Definition edited {T} {P : Payload T} (cs : list (call T)) (n : tn T) : tn T :=
  fold_left (fun n c => fst (do_call c n)) cs n.

Lemma edits_val {T} {P : Payload T} i (cs : list (call T)) : forall l n, nth_error l i = Some (Some n) ->
  fold_left act_val (map (AEdit i) cs) l = set_nth i (Some (edited cs n)) l.
Proof.
  induction cs as [|c cs IH]; intros l n E; simpl.
  - apply nth_error_ext_. intros j. destruct (Nat.eq_dec i j) as [<-|N].
    + rewrite set_nth_same; auto. apply nth_error_Some. congruence.
    + now rewrite set_nth_other.
  - rewrite E. assert (L : i < length l) by (apply nth_error_Some; congruence).
    rewrite (IH _ (fst (do_call c n))) by (now apply set_nth_same).
    apply nth_error_ext_. intros j. destruct (Nat.eq_dec i j) as [<-|N].
    + rewrite !set_nth_same; rewrite ?set_nth_length; auto.
    + now rewrite !set_nth_other.
Qed.
Lemma allowed_edits {T} {P : Payload T} i (cs : list (call T)) sh :
  (nth i sh true = true -> forall c, In c cs -> assigns c = false) -> allowed sh (map (AEdit i) cs) = true.
Proof.
  induction cs as [|c cs IH]; simpl; auto. intros Q. rewrite IH by auto. rewrite andb_true_r.
  destruct (nth i sh true); [|apply orb_true_r]. rewrite (Q eq_refl c); auto.
Qed.

(** Editing the copy with calls other than rewire and change_fix leaves the original as it was, and the
    copy is the original with these edits; the same with the roles exchanged. *)
Theorem C19_copy :
  forall (T : Type) (P : Payload T) (n : tn T) (cs : list (call T)),
    (forall c, In c cs -> assigns c = false) ->
    looks (fold_left act (ACopy 0 :: map (AEdit 1) cs) (start n)) = [Some n; Some (edited cs (copy_tn n))] /\
    looks (fold_left act (ACopy 0 :: map (AEdit 0) cs) (start n)) = [Some (edited cs n); Some (copy_tn n)].
Proof.
  intros T P n cs A. split; rewrite C19_isolated.
  1,3: cbn [fold_left act_val nth_error app]; erewrite edits_val by reflexivity; reflexivity.
  all: cbn [allowed]; apply allowed_edits; auto.
Qed.
Print Assumptions C19_copy.

Lemma foreach_id {T X} (f : X -> M (T := T) unit) l n : (forall x, In x l -> f x n = (n, Ok tt)) -> foreach f l n = (n, Ok tt).
Proof.
  induction l as [|x r IH]; intros Q; auto. cbn [foreach]. unfold mbind. rewrite (Q x) by (simpl; auto). apply IH. intros; apply Q; simpl; auto.
Qed.
Lemma set_same {V} x (v : V) (l : list (name * V)) : get x l = Some v -> set x v l = l.
Proof.
  induction l as [|[y w] r IH]; simpl; try discriminate.
  destruct (eqb_spec x y) as [->|N]; intros Q; [injection Q as ->; auto|]. f_equal; auto.
Qed.
Lemma deep_val_regular (S : scalar) (n : tn (tval S)) : regular n -> deep_val n = (copy_tn n, Ok tt).
Proof.
  intros R. unfold deep_val. change (with_idc n 0) with (copy_tn n). apply foreach_id. intros x I.
  apply key_get in I as [nd G]. unfold mbind, getst. change (nodes (copy_tn n)) with (nodes n). rewrite G.
  destruct (rg_sized R x G) as (t & E1 & E2 & E3). rewrite E1.
  rewrite (@update_node_same _ _ x t nd (copy_tn n)); auto.
  - change (nodes (copy_tn n)) with (nodes n). rewrite set_same; [destruct n; reflexivity|].
    rewrite G. destruct nd; simpl in *; subst; auto.
  - intros e J. exact (@wf_legs _ _ (proj1 (rg_inv R)) x nd e G J).
Qed.

(** deepcopy succeeds on every regular network and then all edit calls are isolated, in both directions. *)
Theorem C19_deepcopy :
  forall (S : scalar) (n : tn (tval S)) (cs : list (call (tval S))),
    regular n ->
    looks (fold_left act (ADeep 0 :: map (AEdit 1) cs) (start n)) = [Some n; Some (edited cs (copy_tn n))] /\
    looks (fold_left act (ADeep 0 :: map (AEdit 0) cs) (start n)) = [Some (edited cs n); Some (copy_tn n)].
Proof.
  intros S n cs R. split; rewrite C19_isolated.
  1,3: cbn [fold_left act_val nth_error app]; rewrite (deep_val_regular R); erewrite edits_val by reflexivity; reflexivity.
  all: cbn [allowed]; apply allowed_edits; simpl; discriminate.
Qed.
Print Assumptions C19_deepcopy.

(** and a copy has the value of the original *)
Theorem C19_copy_value :
  forall (S : scalar) (n : tn (tval S)) (o : list nat), value (copy_tn n) o = value n o.
Proof. reflexivity. Qed.
Print Assumptions C19_copy_value.

(** ** Examples: a vector a_i and a vector b_j, both summed *)
Definition two_calls : list (call ZT) :=
  [CAddNode a_ (Some [i_]) (zvec [1; 2]%Z) false; CAddNode b_ (Some [j_]) (zvec [3; 5]%Z) false].
Definition two : tn ZT := zbuild two_calls.
Definition vals (l : list (option (tn ZT))) : list (option Z) := map (option_map (fun n => value n [])) l.
Definition some_edits : list (call ZT) :=
  [CUpdateNode a_ (zvec [10; 20]%Z); CMergeEdges [i_; j_] i_; CFixEdge i_ [0] false; CPopNode c_].
Example C19_somewhere :
  regular two /\ (forall c, In c some_edits -> assigns c = false) /\
  vals (looks (fold_left act (ACopy 0 :: map (AEdit 1) some_edits) (start two))) = [Some 24%Z; Some 30%Z] /\
  allowed [false] ([AEdit 0 (CRewire b_ 0 i_ : call ZT); ADeep 0; AEdit 1 (CRewire b_ 0 j_); ACopy 0] ++ map (AEdit 2) some_edits) = true /\
  vals (looks (fold_left act ([AEdit 0 (CRewire b_ 0 i_); ADeep 0; AEdit 1 (CRewire b_ 0 j_); ACopy 0] ++ map (AEdit 2) some_edits) (start two)))
    = [Some 26%Z; Some 24%Z; Some 30%Z].
Proof.
  split; [apply zbuild_regular|split; [|split; [|split]]]; try (vm_compute; reflexivity).
  - simpl. intuition discriminate.
  - intros c Hc. repeat (destruct Hc as [<-|Hc]; [reflexivity|]). destruct Hc.
Qed.

(** The guard is needed: rewiring a copy changes the value of the original, *)
Theorem C19_rewire_refuted :
  ~ (forall (n : tn ZT) (c : call ZT), regular n -> snd (do_call c n) = Ok tt ->
     match nth_error (looks (fold_left act [ACopy 0; AEdit 1 c] (start n))) 0 with
     | Some (Some n') => value n' [] = value n []
     | _ => False
     end).
Proof.
  intros Q. specialize (Q two (CRewire b_ 0 i_)). assert (R : regular two) by apply C19_somewhere.
  assert (E : snd (do_call (CRewire b_ 0 i_) two) = Ok tt) by (vm_compute; reflexivity).
  specialize (Q R E). vm_compute in Q. discriminate Q.
Qed.
Print Assumptions C19_rewire_refuted.
(** and so does changing the value an edge is fixed to. *)
Theorem C19_change_fix_refuted :
  ~ (forall (n : tn ZT) (e : name) (v : nat), regular n -> snd (do_call (CFixEdge e [v] true) n) = Ok tt ->
     match nth_error (looks (fold_left act [ACopy 0; AEdit 1 (CFixEdge e [v] true)] (start n))) 0 with
     | Some (Some n') => value n' [] = value n []
     | _ => False
     end).
Proof.
  intros Q. specialize (Q (zbuild (two_calls ++ [CFixEdge i_ [0] false])) i_ 1).
  assert (R : regular (zbuild (two_calls ++ [CFixEdge i_ [0] false]))).
  { apply zbuild_regular; try (vm_compute; reflexivity).
    simpl. intuition discriminate. }
  assert (E : snd (do_call (CFixEdge i_ [1] true) (zbuild (two_calls ++ [CFixEdge i_ [0] false]))) = Ok tt) by (vm_compute; reflexivity).
  specialize (Q R E). vm_compute in Q. discriminate Q.
Qed.
Print Assumptions C19_change_fix_refuted.
