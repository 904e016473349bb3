(** * deepcopy makes new objects with the same looks; fixing an index of a sum *)
From Verif Require Import Base Scalar ModelArray ModelVal ModelObj CopyProofs ObjProofs.
Set Implicit Arguments.

Section ObjP2.
  Variable S : scalar.
  Notation st := (store_ S).
  Notation obj := (obj S).

  Definition below (n : nat) (r : nat) : Prop := r < n.
  Definition between (n m : nat) (r : nat) : Prop := n <= r < m.
  (** no dangling references *)
  Definition valid (s : st) : Prop := closed (below (length (objs s))) (below (length (bufs s))) s.
  (** [s'] is [s] with new objects that refer to new objects only *)
  Record grown (s s' : st) : Prop := {
    gr_ext : exists no nb, objs s' = objs s ++ no /\ bufs s' = bufs s ++ nb;
    gr_new : closed (between (length (objs s)) (length (objs s'))) (between (length (bufs s)) (length (bufs s'))) s'
  }.
  Lemma grown_len s s' : grown s s' -> length (objs s) <= length (objs s') /\ length (bufs s) <= length (bufs s').
  Proof. intros [(no & nb & -> & ->) _]. rewrite !app_length. lia. Qed.
  Lemma grown_agree s s' : grown s s' -> agree (below (length (objs s))) (below (length (bufs s))) s s'.
  Proof. intros [(no & nb & E & F) _]. split; unfold below; intros; [rewrite E|rewrite F]; now rewrite nth_error_app1. Qed.
  Lemma held_weaken (R R' B B' : nat -> Prop) (o : obj) : held R B o -> (forall r, R r -> R' r) -> (forall a, B a -> B' a) -> held R' B' o.
  Proof. destruct o as [[| |]|]; simpl; eauto. Qed.
  Lemma grown_refl s : grown s s.
  Proof. split; [exists [], []; now rewrite !app_nil_r|]. intros r o [A B]. lia. Qed.
  Lemma grown_trans s1 s2 s3 : grown s1 s2 -> grown s2 s3 -> grown s1 s3.
  Proof.
    intros G1 G2. pose proof (grown_len G1). pose proof (grown_len G2). pose proof (grown_agree G2) as A2.
    destruct G1 as [(n1 & b1 & E1 & F1) N1], G2 as [(n2 & b2 & E2 & F2) N2]. split.
    - exists (n1 ++ n2), (b1 ++ b2). rewrite E2, E1, F2, F1, !app_assoc. auto.
    - intros r o [L U] E. destruct (Nat.lt_ge_cases r (length (objs s2))) as [Q|Q].
      + rewrite (ag_o A2) in E by exact Q. apply N1 in E; [|split; auto].
        eapply held_weaken; [exact E| |]; unfold between; intros; lia.
      + apply N2 in E; [|split; auto]. eapply held_weaken; [exact E| |]; unfold between; intros; lia.
  Qed.
  Lemma grown_valid s s' : grown s s' -> valid s -> valid s'.
  Proof.
    intros G V r o L E. pose proof (grown_len G). destruct (Nat.lt_ge_cases r (length (objs s))) as [Q|Q].
    - rewrite (ag_o (grown_agree G)) in E by exact Q. apply V in E; auto. eapply held_weaken; [exact E| |]; unfold below; intros; lia.
    - apply (gr_new G) in E; [|split; auto]. eapply held_weaken; [exact E| |]; unfold below, between; intros; lia.
  Qed.
  Lemma grown_view s s' k r : grown s s' -> valid s -> r < length (objs s) -> view k s' r = view k s r.
  Proof. intros G V L. apply (@view_agree S _ _ s s' V (grown_agree G)). exact L. Qed.

  Lemma new_obj_grown o s s' q : new_obj o s = (s', q) ->
    held (between (length (objs s)) (length (objs s'))) (between (length (bufs s)) (length (bufs s'))) o -> grown s s' /\
    q = length (objs s) /\ nth_error (objs s') q = Some o /\ q < length (objs s').
  Proof.
    unfold new_obj. intros E. injection E as <- <-. cbn [objs bufs]. rewrite app_length; simpl. intros Hd.
    split; [|split; [auto|split; [rewrite nth_error_app2, Nat.sub_diag; auto|lia]]]. split.
    - exists [o], []. cbn [objs bufs]. now rewrite app_nil_r.
    - cbn [objs bufs]. intros r o' [L U] E. rewrite app_length in *. simpl in *. rewrite nth_error_app2 in E by lia.
      destruct (r - _) as [|[|?]]; try discriminate. injection E as <-. auto.
  Qed.
  Lemma new_tensor_grown b s s' q : new_tensor b s = (s', q) -> grown s s' /\ length (objs s) <= q < length (objs s') /\
    (forall k, view (Datatypes.S k) s' q = Some (VTensor b)).
  Proof.
    unfold new_tensor. destruct b as [b|].
    - destruct (new_buf b s) as [s1 a] eqn:E1. unfold new_buf in E1. injection E1 as <- <-.
      unfold new_obj; cbn [objs bufs]. intros E. injection E as <- <-. split; [|split].
      + split; cbn [objs bufs]. exists [OTensor (DArr (length (bufs s)) [])], [b]; auto.
        intros r o [L U] E. cbn [objs] in E, U. rewrite nth_error_app2 in E by lia. destruct (r - _) as [|[|?]]; try discriminate. injection E as <-.
        simpl. unfold between. rewrite app_length; simpl; lia.
      + cbn [objs]. rewrite app_length; simpl; lia.
      + intros k. rewrite view_S. cbn [objs]. rewrite nth_error_app2, Nat.sub_diag by lia. cbn [nth_error dread]. unfold arr. cbn [bufs].
        rewrite nth_error_app2, Nat.sub_diag by lia. reflexivity.
    - intros E. apply new_obj_grown in E as (G & -> & N & L); [|exact I]. split; auto. split; [lia|].
      intros k. rewrite view_S, N. reflexivity.
  Qed.

  Lemma deep_spec : forall k r s s' q, valid s -> r < length (objs s) -> deep k r s = (s', Ok q) ->
    grown s s' /\ length (objs s) <= q < length (objs s') /\ exists v, view k s r = Some v /\ view k s' q = Some v.
  Proof.
    induction k as [|k IH]; intros r s s' q V L E; [discriminate|]. rewrite deep_S in E.
    destruct (nth_error (objs s) r) as [[d|ts]|] eqn:N; [| |discriminate].
    - destruct (dread s d) as [b|] eqn:D; [|discriminate]. destruct (new_tensor b s) as [s1 q1] eqn:E1. injection E as <- <-.
      apply new_tensor_grown in E1 as (G & B & W). split; auto. split; auto. exists (VTensor b). rewrite view_S, N, D. auto.
    - assert (T : forall ts s s' l, valid s -> (forall x q, In (x, q) ts -> q < length (objs s)) -> deep_terms (deep k) ts s = (s', Ok l) ->
        grown s s' /\ (forall x q, In (x, q) l -> length (objs s) <= q < length (objs s')) /\
        exists vs, view_terms (view k s) ts = Some vs /\ view_terms (view k s') l = Some vs).
      { clear E N V L. induction ts0 as [|[x t] tl IHl]; intros s1 s2 l V L E; simpl in E.
        - injection E as <- <-. split; [apply grown_refl|]. split; [destruct 1|]. exists []; auto.
        - destruct (deep k t s1) as [s3 [t'|ex]] eqn:E1; [|discriminate].
          apply IH in E1 as (G1 & B1 & v & W1 & W2); auto. 2:{ apply (L x); simpl; auto. }
          destruct (deep_terms (deep k) tl s3) as [s4 [l'|ex]] eqn:E3; [|discriminate]. injection E as <- <-.
          pose proof (grown_len G1) as [LE1 LE1'].
          apply IHl in E3 as (G3 & B3 & vs & W3 & W4); [|eapply grown_valid; eauto|intros y z Q; specialize (L y z (or_intror Q)); lia].
          pose proof (grown_len G3) as [LE3 LE3'].
          split; [eapply grown_trans; eauto|]. split.
          + intros y z [Q|Q]; [injection Q as <- <-; lia|]. specialize (B3 _ _ Q). lia.
          + exists ((x, v) :: vs). simpl. rewrite W1, W4.
            rewrite (@grown_view s3 s4 k t' G3); [|eapply grown_valid; eauto|lia]. rewrite W2.
            rewrite (view_terms_ext (view k s1) (view k s3)); [now rewrite W3|].
            intros y z Q. symmetry. apply grown_view; auto. apply (L y); simpl; auto. }
      destruct (deep_terms (deep k) ts s) as [s1 [l|ex]] eqn:E1; [|discriminate].
      apply T in E1 as (G1 & B1 & vs & W1 & W2); auto. 2:{ exact (V _ _ L N). }
      destruct (new_obj (OSum l) s1) as [s2 q2] eqn:E2. injection E as <- <-.
      pose proof (grown_len G1) as [LE1 LE1']. pose proof E2 as E2'. unfold new_obj in E2'. injection E2' as <- <-.
      assert (GG : grown s (St (bufs s1) (objs s1 ++ [OSum l]))).
      { destruct (gr_ext G1) as (no & nb & Eo & Eb). split; cbn [objs bufs].
        - exists (no ++ [OSum l]), nb. rewrite Eo, Eb, app_assoc. auto.
        - intros r' o [L1 U1] Q. rewrite app_length in *; simpl in *. destruct (Nat.lt_ge_cases r' (length (objs s1))) as [Z|Z].
          + rewrite nth_error_app1 in Q by auto. apply (gr_new G1) in Q; [|split; auto].
            eapply held_weaken; [exact Q| |]; unfold between; intros; lia.
          + rewrite nth_error_app2 in Q by auto. destruct (r' - _) as [|[|?]]; try discriminate. injection Q as <-.
            simpl. intros x z Iz. apply B1 in Iz. unfold between. lia. }
      split; auto. cbn [objs]. rewrite app_length; cbn [length]. split; [lia|].
      exists (VSum vs). rewrite !view_S, N, W1. cbn [objs]. rewrite nth_error_app2, Nat.sub_diag by lia. cbn [nth_error]. split; auto.
      rewrite (view_terms_ext _ (view k s1)); [now rewrite W2|].
      intros x z Iz. apply B1 in Iz.
      apply (@view_agree S (below (length (objs s1))) (below (length (bufs s1))) s1); [eapply grown_valid; eauto| |unfold below; lia].
      split; unfold below; cbn [objs bufs]; intros; [now rewrite nth_error_app1|auto].
  Qed.
End ObjP2.
