(** The network built for a circuit represents its time-ordered product: the loop of convert_pure. *)
From Coq Require Import Sorting.Permutation Sorting.Sorted.
From Verif Require Import Base Scalar NetSpec Sums NetAlg ModelArray ModelTN TNInv TNOps TNSpec TNValue TNExact TNEdit
  TNEdit2 ModelVal ModelOps OpsSpec OpsProofs ModelContract ContractExec NameOrder CircSpec CircSum CircOrder ModelCircuit CircSem CircShape.
Set Implicit Arguments.

Section History.
  Variable S : scalar.
  Lemma history_cons (g : act S) gs q : history (g :: gs) q = word_at g q ++ history gs q.
  Proof. reflexivity. Qed.
  Lemma history_apart (x : timed S) (p : list (timed S)) q : Forall (fun y => apart (snd x) (snd y)) p -> In q (on (snd x)) ->
    history (map snd p) q = [].
  Proof.
    intros F I. induction F as [|y p A F IH]; simpl; auto. rewrite history_cons, IH, app_nil_r.
    apply word_at_off. apply A; auto.
  Qed.
  Lemma history_front (x : timed S) (p s : list (timed S)) q : Forall (fun y => apart (snd x) (snd y)) p ->
    history (map snd (p ++ x :: s)) q = history (map snd (x :: p ++ s)) q.
  Proof.
    unfold timed in *. intros F. rewrite !map_app, history_app. change (map snd (x :: p ++ s)) with (snd x :: map (@snd Z (act S)) (p ++ s)).
    change (map (@snd Z (act S)) (x :: s)) with (snd x :: map (@snd Z (act S)) s).
    rewrite !history_cons, map_app, history_app, !app_assoc. f_equal.
    destruct (mem q (on (snd x))) eqn:M.
    - apply mem_In in M. pose proof (@history_apart x p q F M) as E. unfold timed in *. rewrite E, app_nil_r. reflexivity.
    - apply mem_false in M. rewrite (word_at_off _ _ M). rewrite app_nil_r; auto.
  Qed.
  Theorem history_time_order (l1 l2 : list (timed S)) q :
    Permutation l1 l2 -> StronglySorted (@time_le S) l1 -> StronglySorted (@time_le S) l2 ->
    ForallOrdPairs (@same_time_apart S) l1 ->
    history (map snd l1) q = history (map snd l2) q.
  Proof.
    revert l2. induction l1 as [|x l1 IH]; intros l2 P S1 S2 F.
    - apply Permutation_nil in P; subst; auto.
    - destruct (in_split x l2) as (p & s & ->); [eapply Permutation_in; [exact P|simpl; auto]|].
      assert (P' : Permutation l1 (p ++ s)) by (eapply Permutation_cons_app_inv; eauto).
      inversion S1 as [|? ? S1' F1]; subst. inversion F as [|? ? A F']; subst.
      assert (Ap : Forall (fun y => apart (snd x) (snd y)) p).
      { apply Forall_forall. intros y Iy.
        assert (Il : In y l1) by (eapply Permutation_in; [apply Permutation_sym; exact P'|apply in_app_iff; auto]).
        rewrite Forall_forall in F1, A. apply (A y Il). apply Z.le_antisymm; [apply F1; auto|].
        clear - S2 Iy. induction p as [|z p IH]; [destruct Iy|]. simpl in S2. inversion S2 as [|? ? S' F]; subst.
        destruct Iy as [->|Iy]; auto. rewrite Forall_forall in F. apply F. apply in_app_iff; simpl; auto. }
      rewrite (@history_front x) by auto. simpl. rewrite !history_cons. f_equal. apply IH; auto.
      clear - S2. induction p as [|z p IH]; simpl in *; inversion S2 as [|? ? S' F]; subst; auto.
      constructor; auto. rewrite Forall_app in F. apply Forall_app. destruct F as [F1 F2]; split; auto. inversion F2; auto.
  Qed.
End History.

(** ** positions and picked qubits *)
Section Pick.
  Variable S : scalar.
  Lemma pick_from {X} (p : role -> bool) (sh : list role) : forall (qs pre : list X), length qs = length sh ->
    pick (pre ++ qs) (map fst (filter (fun x => p (snd x)) (combine (seq (length pre) (length sh)) sh))) =
    Ok (map fst (filter (fun x => p (snd x)) (combine qs sh))).
  Proof.
    induction sh as [|r sh IH]; intros [|q qs] pre L; simpl in *; try discriminate; auto.
    specialize (IH qs (pre ++ [q])). rewrite <- app_assoc, app_length, Nat.add_1_r in IH. simpl in IH.
    specialize (IH ltac:(lia)). destruct (p r); simpl; auto. unfold pick in *. simpl.
    rewrite nth_error_app2, Nat.sub_diag by auto. simpl. rewrite IH. auto.
  Qed.
  Lemma pick_positions {X} (p : role -> bool) sh (qs : list X) : length qs = length sh ->
    pick qs (positions p sh) = Ok (map fst (filter (fun x => p (snd x)) (combine qs sh))).
  Proof. intros L. apply (@pick_from X p sh qs []); auto. Qed.

  Lemma filter_words (p : word -> bool) (r : role -> bool) : (forall x, r x = p (role_word x)) ->
    forall (sh : list role) (qs : list name), NoDup qs -> length qs = length sh ->
    filter (fun q => p (match get q (combine qs (map role_word sh)) with Some w => w | None => [] end)) qs =
    map fst (filter (fun x => r (snd x)) (combine qs sh)).
  Proof.
    intros E. induction sh as [|x sh IH]; intros [|q qs] N L; simpl in *; try discriminate; auto.
    inversion N; subst. rewrite eqb_refl, E.
    assert (F : filter (fun q0 => p (match (if eqb q0 q then Some (role_word x) else get q0 (combine qs (map role_word sh)))
                                     with Some w => w | None => [] end)) qs =
                map fst (filter (fun x => r (snd x)) (combine qs sh))).
    { rewrite <- IH by auto. apply filter_ext_in. intros y Iy. destruct (eqb_spec y q) as [->|]; [tauto|auto]. }
    rewrite F. destruct (p (role_word x)); auto.
  Qed.
  Lemma role_out_word r : role_out r = ends_out (role_word r).
  Proof. destruct r; auto. Qed.
  Lemma role_in_word r : role_in r = starts_in (role_word r).
  Proof. destruct r; auto. Qed.
  Lemma act_outs_role qs sh (a : ampl S) : NoDup qs -> length qs = length sh ->
    act_outs (Act qs (map role_word sh) a) = map fst (filter (fun x => role_out (snd x)) (combine qs sh)).
  Proof. intros N L. apply (@filter_words ends_out role_out role_out_word); auto. Qed.
  Lemma act_ins_role qs sh (a : ampl S) : NoDup qs -> length qs = length sh ->
    act_ins (Act qs (map role_word sh) a) = map fst (filter (fun x => role_in (snd x)) (combine qs sh)).
  Proof. intros N L. apply (@filter_words starts_in role_in role_in_word); auto. Qed.
  Lemma filter_combine_length {X} (r : role -> bool) : forall sh (qs : list X), length qs = length sh ->
    length (map fst (filter (fun x => r (snd x)) (combine qs sh))) = count r sh.
  Proof.
    unfold count. induction sh as [|x sh IH]; intros [|q qs] L; simpl in *; try discriminate; auto.
    destruct (r x); simpl; rewrite IH by lia; auto.
  Qed.
  Lemma act_outs_count qs sh (a : ampl S) : NoDup qs -> length qs = length sh ->
    length (act_outs (Act qs (map role_word sh) a)) = count role_out sh.
  Proof. intros N L. rewrite act_outs_role by auto. apply filter_combine_length; auto. Qed.
  Lemma act_ins_count qs sh (a : ampl S) : NoDup qs -> length qs = length sh ->
    length (act_ins (Act qs (map role_word sh) a)) = count role_in sh.
  Proof. intros N L. rewrite act_ins_role by auto. apply filter_combine_length; auto. Qed.
End Pick.

(** ** the dictionaries *)
Definition e_in (t : Z) (k : nat) (q : name) : name := NT [NI t; NI (Z.of_nat k); q].
Definition e_out (t : Z) (k : nat) (q : name) : name := NT [NI (t + 1); NI (Z.of_nat k); q].

Definition missing {B} (d : list (name * B)) (q : name) : bool := match get q d with None => true | Some _ => false end.
Lemma wire_outs_spec t k : forall qs w, NoDup qs ->
  let z := wire_outs t k qs w in
  fst z = map (fun q => match get q (w_in w) with Some e => e | None => e_out t k q end) qs /\
  (forall q, get q (w_in (snd z)) = if mem q qs then None else get q (w_in w)) /\
  (forall q, get q (w_out (snd z)) = if mem q qs && missing (w_in w) q then Some (e_out t k q) else get q (w_out w)) /\
  w_all (snd z) = w_all w /\
  (NoDup (keys (w_in w)) -> NoDup (keys (w_in (snd z)))) /\ (NoDup (keys (w_out w)) -> NoDup (keys (w_out (snd z)))).
Proof.
  induction qs as [|q qs IH]; intros w N; simpl; [repeat split; auto|].
  inversion N as [|? ? N1 N2]; subst. destruct (get q (w_in w)) as [e|] eqn:G.
  - destruct (IH (Wires (del q (w_in w)) (w_out w) (w_all w)) N2) as (H1 & H2 & H3 & H4 & H5 & H6). simpl in *.
    rewrite H1. repeat split; auto.
    + f_equal. apply map_ext_in. intros x Ix. rewrite get_del_neq; auto. intros ->; tauto.
    + intros x. rewrite H2. destruct (eqb_spec x q) as [->|Nx]; simpl.
      * rewrite (proj2 (mem_false q qs) N1), get_del_eq; auto.
      * rewrite get_del_neq by auto. auto.
    + intros x. rewrite H3. destruct (eqb_spec x q) as [->|Nx]; simpl.
      * rewrite (proj2 (mem_false q qs) N1). simpl. unfold missing. rewrite G. auto.
      * unfold missing. rewrite get_del_neq by auto. auto.
    + intros ND. apply H5. apply keys_del_NoDup; auto.
  - fold (e_out t k q). destruct (IH (Wires (w_in w) (set q (e_out t k q) (w_out w)) (w_all w)) N2) as (H1 & H2 & H3 & H4 & H5 & H6). simpl in *.
    rewrite H1. repeat split; auto.
    + intros x. rewrite H2. destruct (eqb_spec x q) as [->|Nx]; simpl; auto.
      rewrite (proj2 (mem_false q qs) N1). auto.
    + intros x. rewrite H3. destruct (eqb_spec x q) as [->|Nx]; simpl.
      * rewrite (proj2 (mem_false q qs) N1). simpl. unfold missing. rewrite G. simpl. rewrite get_set_eq; auto.
      * rewrite get_set_neq by auto. auto.
    + intros ND. apply H6. apply keys_set_NoDup; auto.
Qed.
Lemma wire_ins_spec t k : forall qs w, NoDup qs ->
  let z := wire_ins t k qs w in
  fst z = map (e_in t k) qs /\
  (forall q, get q (w_in (snd z)) = if mem q qs then Some (e_in t k q) else get q (w_in w)) /\
  w_out (snd z) = w_out w /\ w_all (snd z) = w_all w /\
  (NoDup (keys (w_in w)) -> NoDup (keys (w_in (snd z)))).
Proof.
  induction qs as [|q qs IH]; intros w N; simpl; [repeat split; auto|].
  inversion N as [|? ? N1 N2]; subst.
  fold (e_in t k q). destruct (IH (Wires (set q (e_in t k q) (w_in w)) (w_out w) (w_all w)) N2) as (H1 & H2 & H3 & H4 & H5). simpl in *.
  rewrite H1. repeat split; auto.
  - intros x. rewrite H2. destruct (eqb_spec x q) as [->|Nx]; simpl.
    + rewrite (proj2 (mem_false q qs) N1), get_set_eq; auto.
    + rewrite get_set_neq; auto.
  - intros ND. apply H5. apply keys_set_NoDup; auto.
Qed.
