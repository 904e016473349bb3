(** * Nested circuits: densities *)
From Coq Require Import Sorting.Permutation Sorting.Sorted.
From Verif Require Import Base Scalar NetSpec Sums NetAlg ModelArray ModelTN TNInv TNOps TNSpec TNValue TNExact TNEdit
  TNEdit2 ModelVal ModelOps OpsSpec OpsProofs OpsValue ModelContract ContractExec NameOrder CircSpec CircSum CircOrder ModelCircuit CircSem CircShape
  CircWire CircStep CircNet CircCtrl CircWhen CircOp CircMain CircBuild CircUse DensSpec CircDens CircDensNet CircDensOp CircPure ChanCirc CircFlat FlatSpec CircNest CircNest2.
Set Implicit Arguments.

Section Dens.
  Variable S : scalar.
  Notation op := (op S).
  Definition one_cact (p : op * list name) : cact S := CAct (snd p) (map role_word (shape_or (fst p))) (op_dens (fst p)).
  Definition one_dact (p : op * list name) : act S := dbl (one_cact p).
  Definition lift (f : name -> name) (x : name) : name := match x with NT [q; s] => NT [f q; s] | _ => x end.
  Lemma lift_both f qs : map (lift f) (both qs) = both (map f qs).
  Proof. unfold both. rewrite map_app, !map_map. reflexivity. Qed.
  Lemma lift_inj f R' : (forall x y, In x R' -> In y R' -> f x = f y -> x = y) ->
    forall x y, In x (both R') -> In y (both R') -> lift f x = lift f y -> x = y.
  Proof.
    intros I x y Ix Iy E. apply both_In in Ix as (q & Iq & Hx), Iy as (r & Ir & Hy).
    destruct Hx as [-> | ->], Hy as [-> | ->]; cbn in E; try discriminate; inversion E as [E']; rewrite (I q r Iq Ir E'); auto.
  Qed.
  Lemma moved_dact R' qs (p : name * gate op) : (forall x y, In x R' -> In y R' -> wire_to R' qs x = wire_to R' qs y -> x = y) ->
    incl (g_qubits (snd p)) R' -> one_dact (moved R' qs p) = rename (lift (wire_to R' qs)) (dbl (xc p)).
  Proof.
    intros Inj I. destruct p as [k [t u a]]. unfold one_dact, one_cact, moved, xc, rename, dbl. cbn [fst snd g_op g_qubits on words amp c_on c_words c_chan] in *.
    rewrite lift_both. f_equal. unfold skel. cbn [c_on c_words].
    change (Act (map (wire_to R' qs) u) (map role_word (shape_or a)) (fun _ _ => k0 (s := S))) with
      (rename (wire_to R' qs) (Act u (map role_word (shape_or a)) (fun _ _ => k0 (s := S)))).
    rewrite (@outs_rename S (wire_to R' qs) R'), (@ins_rename S (wire_to R' qs) R'), !map_length by auto. reflexivity.
  Qed.

  Lemma xc_words (l : circ op) q : history (map (@skel S) (map (@xc S) l)) q = history (map (@gate_act S) l) q.
  Proof. apply words_history. induction l as [|[k [t u a]] l IH]; simpl; constructor; auto. Qed.

  Lemma dens_known (c gates : circ op) sh R' : gates_ok c -> op_shape (OCirc c) = Ok sh -> time_ordered c gates -> register c R' ->
    Forall (@fits S) (map (@xc S) gates) /\
    forall x y, bits (length (wires_out (both R') (map (@dbl S) (map (@xc S) gates)))) x ->
      amplitude (both R') (map (@dbl S) (map (@xc S) (in_order c))) x y = amplitude (both R') (map (@dbl S) (map (@xc S) gates)) x y.
  Proof.
    intros G Es T Rg. destruct (circ_known G Es T Rg) as (NR & Lsh & Fit & Al & Esh & Ip & Co & Am).
    destruct (circ_facts G Es) as (Q & AQ & Ap & _).
    assert (Ft : forall l : circ op, (forall p, In p l -> In p c) -> Forall (@fits S) (map (@xc S) l)).
    { intros l H. rewrite Forall_map. apply Forall_forall. intros [k g] I. destruct (G k g (H _ I)) as [_ L]. apply op_len_shape in L as [_ L].
      unfold fits. cbn. rewrite map_length. auto. }
    assert (Io : forall p, In p (in_order c) -> In p c) by (intros p; apply Permutation_in, Permutation_sym, in_order_perm).
    split; auto. intros x y Bx. unfold amplitude. destruct T as [P St].
    assert (H : forall q, history (map (@skel S) (map (@xc S) gates)) q = history (map (@skel S) (map (@xc S) (in_order c))) q).
    { intros q. rewrite !xc_words. rewrite <- (any_history q Ap P St). apply any_history; auto; [apply in_order_perm|apply in_order_sorted]. }
    assert (Eo : wires_out (both R') (map (@dbl S) (map (@xc S) (in_order c))) = wires_out (both R') (map (@dbl S) (map (@xc S) gates))).
    { rewrite !dbl_wires_out by auto. f_equal. apply filter_ext. intros q. rewrite H; auto. }
    assert (Ei : wires_in (both R') (map (@dbl S) (map (@xc S) (in_order c))) = wires_in (both R') (map (@dbl S) (map (@xc S) gates))).
    { rewrite !dbl_wires_in by auto. f_equal. apply filter_ext. intros q. rewrite H; auto. }
    rewrite Eo, Ei. set (tl := map (fun p : name * gate op => (g_time (snd p), dbl (xc p)))).
    assert (Et : forall l, map (@dbl S) (map (@xc S) l) = map snd (tl l)) by (intros l; unfold tl; rewrite !map_map; reflexivity).
    rewrite !Et. apply run_time_order.
    - apply both_NoDup; auto.
    - unfold tl. apply Permutation_map. eapply perm_trans; [apply Permutation_sym, in_order_perm|exact P].
    - assert (St' := @in_order_sorted _ c). revert St'. unfold tl. generalize (in_order c) as l. clear. induction 1 as [|p l S1 IH F]; simpl; constructor; auto. rewrite Forall_map. exact F.
    - revert St. unfold tl. clear. induction 1 as [|p l S1 IH F]; simpl; constructor; auto. rewrite Forall_map. exact F.
    - assert (Ap' : apart_ok (map_circ (@spec_of S) (in_order c))) by (apply (apart_perm (c := map_circ (@spec_of S) c)); auto; unfold map_circ; apply Permutation_map, in_order_perm).
      revert Ap'. unfold tl, apart_ok, tacts, map_circ. rewrite map_map. generalize (in_order c) as l. clear. induction l as [|[k [t q a]] l IH]; intros Ap; simpl in *; [constructor|].
      inversion Ap as [|? ? F1 F2]; subst. constructor; auto. rewrite Forall_map in *. eapply Forall_impl; [|exact F1].
      intros [k' [t' q' a']] Z E z Iz Iz'. cbn in Iz, Iz'. apply both_In in Iz as (u & Iu & Hu), Iz' as (v & Iv & Hv). apply (Z E u Iu).
      destruct Hu as [-> | ->], Hv as [Hv | Hv]; inversion Hv; subst; exact Iv.
    - unfold tl. rewrite Forall_map. apply Forall_forall. intros [k g] I. apply Io in I. destruct (G k g I) as [Ng _]. split; cbn.
      + apply both_NoDup; auto.
      + apply both_incl. intros q Iq. apply (proj1 Rg). exists k, g. auto.
    - apply basis_depends.
    - intros q Iq. apply bits_place. rewrite <- Et. auto.
  Qed.

  Definition wire_in (x : name) : name := match x with NT [q; _] => q | _ => x end.
  Lemma dens_den_circ (c gates : circ op) Q R' qs psi a : NoDup Q -> op_wf (OCirc c) -> time_ordered c gates -> register c R' ->
    op_len (OCirc c) = Ok (length qs) -> NoDup qs -> incl qs Q -> depends_on (S := S) (both Q) psi -> (forall q, In q (both Q) -> a q < 2)%nat ->
    evolve (both Q) (one_dact (OCirc c, qs)) psi a = run (both Q) (map one_dact (map (moved R' qs) gates)) psi a.
  Proof.
    intros NQ W T Rg L Nq I D Ba. inversion W as [| | | | | |? N Wg G|]; subst. apply op_len_shape in L as [Es L].
    destruct (circ_known G Es T Rg) as (NR & Lsh & Fit & Al & Esh & Ip & Co & Am). assert (Lq : length qs = length R') by congruence.
    destruct (dens_known G Es T Rg) as [Ft Ao]. pose proof (wire_to_inj NR Nq Lq) as Inj.
    assert (Iq : forall p, In p gates -> incl (g_qubits (snd p)) R').
    { intros p I'. rewrite Forall_map, Forall_forall in Fit. destruct (Fit _ I') as [_ Inc]. destruct p as [k [t u b]]. exact Inc. }
    rewrite map_map. rewrite (map_ext_in _ (fun p => rename (lift (wire_to R' qs)) (dbl (xc p)))) by (intros p I'; apply moved_dact; auto).
    rewrite <- (map_map (@xc S) (fun g => rename (lift (wire_to R' qs)) (dbl g))), <- (map_map (@dbl S) (rename (lift (wire_to R' qs)))).
    set (Wd := fun x => truncate (history (map (@gate_act S) gates) (wire_in x))).
    assert (Hb : forall x, In x (both R') -> history (map (@dbl S) (map (@xc S) gates)) x = history (map (@gate_act S) gates) (wire_in x)).
    { intros x Ix. apply both_In in Ix as (q & _ & [-> | ->]); [rewrite history_ket by auto|rewrite history_bra by auto]; apply xc_words. }
    rewrite <- (@place_circuit S (lift (wire_to R' qs)) (both R') (both Q) (map (@dbl S) (map (@xc S) gates)) Wd); auto.
    2:{ apply lift_inj; auto. }
    2:{ apply both_NoDup; auto. }
    2:{ apply both_NoDup; auto. }
    2:{ rewrite lift_both, wire_to_map by auto. apply both_incl; auto. }
    2:{ rewrite !Forall_map. apply Forall_forall. intros p I'. split; cbn.
        - apply both_NoDup. destruct p as [k g]. apply (G k g). apply Ip; auto.
        - apply both_incl. apply Iq; auto. }
    2:{ intros x Ix. rewrite Hb by auto. apply Al. }
    2:{ intros x Ix. rewrite Hb by auto. apply alike_truncate, Al. }
    rewrite lift_both, wire_to_map by auto.
    assert (Ew : map Wd (both R') = map role_word (shape_or (OCirc c)) ++ map role_word (shape_or (OCirc c))).
    { rewrite map_both, Esh, map_map. reflexivity. }
    rewrite Ew. unfold one_dact, dbl, one_cact. cbn [c_on c_words c_chan fst snd].
    assert (Ed : op_dens (OCirc c) = channel R' (map (@xc S) (in_order c))).
    { rewrite opdens_circ. unfold circ_chan. destruct (circ_facts G Es) as (Q' & AQ & _).
      assert (Q' = R') as -> by (apply (register_unique (c := c) (d := c)); auto; [tauto|apply all_qubits_register; auto]).
      rewrite all_qubits_map, AQ. f_equal. rewrite in_order_map. unfold map_circ. rewrite !map_map. apply map_ext. intros [k [t u b]]. reflexivity. }
    rewrite Ed. apply evolve_amp; auto; [apply both_incl; auto|]. intros o i Bo. unfold channel. rewrite !firstn_skipn. apply Ao.
    rewrite dbl_wires_out by auto. unfold both at 1. rewrite app_length, !map_length.
    match type of Bo with bits ?n _ => replace (length (wires_out R' (map (@skel S) (map (@xc S) gates))) + length (wires_out R' (map (@skel S) (map (@xc S) gates))))%nat with n; auto end.
    assert (Fo : fits (one_cact (OCirc c, qs))) by (unfold fits; cbn [one_cact c_on c_words fst snd]; rewrite map_length; auto).
    match goal with |- length (act_outs ?g) = _ => change (act_outs g) with (act_outs (dbl (one_cact (OCirc c, qs)))) end.
    rewrite dbl_outs by auto. unfold both. rewrite app_length, !map_length.
    assert (Eo : length (act_outs (skel (one_cact (OCirc c, qs)))) = length (wires_out R' (map (@skel S) (map (@xc S) gates)))).
    { unfold skel, one_cact. cbn [c_on c_words fst snd]. rewrite act_outs_count by auto. rewrite Co. f_equal. apply filter_ext. intros q. rewrite xc_words; auto. }
    rewrite Eo. auto.
  Qed.
End Dens.
