(** * Fixing an index of a sum whose terms are all different objects *)
From Verif Require Import Base Scalar NetSpec ModelArray ModelVal ModelObj CopyProofs ObjProofs ObjProofs2 Sums.
Set Implicit Arguments.

Section ObjFix.
  Variable S : scalar.
  Notation st := (store_ S).
  Notation obj := (obj S).

  (** the objects that [r] consists of, with repetitions *)
  Fixpoint parts (k : nat) (s : st) (r : oref) : list oref :=
    match k, nth_error (objs s) r with
    | Datatypes.S k, Some (OTensor _) => [r]
    | Datatypes.S k, Some (OSum ts) => r :: concat (map (fun p => parts k s (snd p)) ts)
    | _, _ => []
    end.
  (** all arrays in [t] have [n] + 1 indices, and [v] is a value of index [i] *)
  Fixpoint fits (n i v : nat) (t : tval S) : Prop :=
    match t with
    | VTensor None => True
    | VTensor (Some d) => length (nd_shape d) = Datatypes.S n /\ exists m, nth_error (nd_shape d) i = Some m /\ v < m
    | VSum l => fold_right (fun p q => fits n i v (snd p) /\ q) True l
    | _ => False
    end.
  Definition all_terms (k : nat) (s : st) (ts : list (name * oref)) : list oref := concat (map (fun p => parts k s (snd p)) ts).
  Lemma parts_S k (s : st) r : parts (Datatypes.S k) s r =
    match nth_error (objs s) r with
    | Some (OTensor _) => [r]
    | Some (OSum ts) => r :: all_terms k s ts
    | None => []
    end.
  Proof. reflexivity. Qed.
  Definition any (_ : nat) : Prop := True.
  Definition isin (l : list nat) (r : nat) : Prop := In r l.
  Lemma all_terms_In k s ts z : In z (all_terms k s ts) <-> exists x q, In (x, q) ts /\ In z (parts k s q).
  Proof.
    unfold all_terms. rewrite in_concat. split.
    - intros (l & I & J). apply in_map_iff in I as ([x q] & <- & I). eauto.
    - intros (x & q & I & J). exists (parts k s q). split; auto. apply in_map_iff. exists (x, q); auto.
  Qed.
  Lemma view_terms_In f (ts : list (name * oref)) vs x q : view_terms (S := S) f ts = Some vs -> In (x, q) ts -> f q <> None.
  Proof.
    revert vs; induction ts as [|[y z] r IH]; intros vs E I; [destruct I|]. simpl in E.
    destruct (f z) eqn:Fz; [|discriminate]. destruct (view_terms f r) eqn:Fr; [|discriminate].
    destruct I as [I|I]; [injection I as <- <-; congruence|]. eapply IH; eauto.
  Qed.
  Lemma parts_self k s r : view k s r <> None -> In r (parts k s r).
  Proof.
    destruct k; [intros N; elim N; reflexivity|]. rewrite view_S, parts_S. destruct (nth_error (objs s) r) as [[d|ts]|]; simpl; tauto.
  Qed.
  Lemma parts_closed : forall k (s : st) r, view k s r <> None -> closed (isin (parts k s r)) any s.
  Proof.
    induction k as [|k IH]; intros s r N; [elim N; reflexivity|]. rewrite view_S in N. unfold closed. rewrite parts_S.
    destruct (nth_error (objs s) r) as [[d|ts]|] eqn:E; [| |tauto].
    - intros z o [<-|[]] Q. rewrite E in Q. injection Q as <-. simpl. destruct d; exact I || auto.
    - destruct (view_terms (view k s) ts) as [vs|] eqn:Vt; [|elim N; reflexivity].
      intros z o [<-|Iz] Q.
      + rewrite E in Q. injection Q as <-. simpl. intros x q I. right. apply all_terms_In. exists x, q. split; auto.
        apply parts_self. eapply view_terms_In; eauto.
      + apply all_terms_In in Iz as (x & q & I & J). pose proof (IH s q (view_terms_In _ _ _ _ Vt I) z o J Q) as Hh.
        eapply held_weaken; [exact Hh| |auto]. intros y Jy. right. apply all_terms_In. eauto.
  Qed.
  Lemma parts_agree R B (s s' : st) : closed R B s -> agree R B s s' -> forall k r, R r -> parts k s' r = parts k s r.
  Proof.
    intros C A. induction k as [|k IH]; intros r I; auto. rewrite !parts_S, (ag_o A) by auto.
    destruct (nth_error (objs s) r) as [[d|ts]|] eqn:E; auto. f_equal. unfold all_terms. f_equal.
    apply map_ext_in. intros [x q] J. apply IH. exact (C _ _ I E x q J).
  Qed.
  Lemma parts_below k (s : st) : valid s -> forall r, r < length (objs s) -> forall z, In z (parts k s r) -> z < length (objs s).
  Proof.
    intros V. induction k as [|k IH]; intros r L z I; [destruct I|]. rewrite parts_S in I.
    destruct (nth_error (objs s) r) as [[d|ts]|] eqn:E; [destruct I as [<-|[]]; auto| |destruct I].
    destruct I as [<-|I]; auto. apply all_terms_In in I as (x & q & I & J). eapply IH; [|exact J]. exact (V _ _ L E x q I).
  Qed.

  (** what fixing does: writes [ps] only, and returns objects made of [ps] and new ones *)
  Record wrote (ps : list nat) (s s' : st) : Prop := {
    wr_b : bufs s' = bufs s;
    wr_len : length (objs s) <= length (objs s');
    wr_valid : valid s';
    wr_frame : forall z, z < length (objs s) -> ~ In z ps -> nth_error (objs s') z = nth_error (objs s) z
  }.
  Definition made (ps : list nat) (s s' : st) (l : list nat) : Prop :=
    forall z, In z l -> In z ps \/ length (objs s) <= z < length (objs s').
  Lemma wrote_agree ps s s' (l : list nat) : wrote ps s s' -> (forall z, In z l -> z < length (objs s) /\ ~ In z ps) ->
    agree (isin l) any s s'.
  Proof. intros W A. split; [|rewrite (wr_b W); auto]. intros z I. apply A in I as [? ?]. apply (wr_frame W); auto. Qed.

  Definition fixes (n i v : nat) (t t' : tval S) : Prop :=
    forall o, length o = n -> tval_value t' o = tval_value t (ins_nth i v o).

  Lemma set_nth_valid (s : st) r o : valid s -> held (below (length (objs s))) (below (length (bufs s))) o -> valid (put_obj r o s).
  Proof.
    intros V Hh z o' L E. unfold put_obj in *. cbn [objs bufs] in *. rewrite set_nth_length in *.
    destruct (Nat.eq_dec r z) as [<-|N].
    - rewrite set_nth_same in E by exact L. injection E as <-. exact Hh.
    - rewrite set_nth_other in E by auto. exact (V _ _ L E).
  Qed.

  Lemma fix_spec n i v : i <= n -> forall k r (s : st) t, valid s -> r < length (objs s) -> view k s r = Some t -> NoDup (parts k s r) ->
    fits n i v t -> exists s' q t', fix_ k r i v s = (s', Ok q) /\ view k s' q = Some t' /\ fixes n i v t t' /\
      wrote (parts k s r) s s' /\ q < length (objs s') /\ made (parts k s r) s s' (parts k s' q).
  Proof.
    intros Hi. induction k as [|k IH]; intros r s t V L W ND F; [discriminate|]. rewrite view_S in W. rewrite parts_S in *. rewrite fix_S.
    destruct (nth_error (objs s) r) as [[d|ts]|] eqn:E; [| |discriminate].
    - (* a tensor *)
      destruct d as [|a fx|c]; cbn [dread option_map] in W.
      + injection W as <-. exists s, r, (VTensor None). split; auto. split; [rewrite view_S, E; auto|]. split; [intros o _; reflexivity|].
        split; [split; auto|]. split; auto. intros z. rewrite parts_S, E. auto.
      + destruct (arr s a fx) as [b|] eqn:Ea; [|discriminate]. injection W as <-. destruct F as (Ln & m & Em & Hv).
        rewrite Em. apply Nat.ltb_lt in Hv. rewrite Hv.
        set (o := OTensor _). exists (put_obj r o s), r, (VTensor (Some (if length (nd_shape b) =? 1 then nd_scalar (nd_at b [v]) else nd_pick b (i, v)))). split; [reflexivity|].
        assert (Ho : nth_error (objs (put_obj r o s)) r = Some o) by (apply set_nth_same; auto).
        assert (Hh : held (below (length (objs s))) (below (length (bufs s))) o).
        { pose proof (V _ _ L E) as Q. subst o. simpl in *. destruct (_ =? 1); auto. }
        split; [rewrite view_S, Ho; subst o; cbn [dread]; destruct (length (nd_shape b) =? 1) eqn:En; cbn [dread]|].
        * reflexivity.
        * cbn [option_map]. unfold arr in *. cbn [put_obj bufs]. destruct (nth_error (bufs s) a) as [b0|]; [|discriminate].
          cbn [option_map] in *. injection Ea as <-. rewrite fold_left_app. reflexivity.
        * rewrite Ln. destruct n as [|n]; cbn [Nat.eqb].
          -- split; [|split; [|split; [cbn [put_obj objs]; now rewrite set_nth_length|]]].
             ++ intros o' Lo. destruct o'; [|discriminate]. assert (i = 0%nat) by lia. subst i. reflexivity.
             ++ split; cbn [put_obj objs bufs]; auto; [now rewrite set_nth_length|apply set_nth_valid; auto|].
                intros z Lz Nz. apply set_nth_other. intros ->. apply Nz; simpl; auto.
             ++ intros z. rewrite parts_S, Ho. subst o. intros Iz; left; exact Iz.
          -- split; [|split; [|split; [cbn [put_obj objs]; now rewrite set_nth_length|]]].
             ++ intros o' Lo. reflexivity.
             ++ split; cbn [put_obj objs bufs]; auto; [now rewrite set_nth_length|apply set_nth_valid; auto|].
                intros z Lz Nz. apply set_nth_other. intros ->. apply Nz; simpl; auto.
             ++ intros z. rewrite parts_S, Ho. subst o. intros Iz; left; exact Iz.
      + injection W as <-. destruct F as (Ln & _). discriminate Ln.
    - (* a sum *)
      assert (T : forall ts (s : st) vs, valid s -> (forall x q, In (x, q) ts -> q < length (objs s)) -> view_terms (view k s) ts = Some vs ->
        NoDup (all_terms k s ts) -> fits n i v (VSum vs) ->
        exists s' l vs', fix_terms (fun t => fix_ k t i v) ts s = (s', Ok l) /\ view_terms (view k s') l = Some vs' /\
          fixes n i v (VSum vs) (VSum vs') /\ wrote (all_terms k s ts) s s' /\ (forall x q, In (x, q) l -> q < length (objs s')) /\
          made (all_terms k s ts) s s' (all_terms k s' l)).
      { clear - IH Hi. induction ts as [|[x t] tl IHl]; intros s vs V L W ND F.
        - injection W as <-. exists s, [], []. split; [reflexivity|]. split; [reflexivity|]. split; [intros o _; reflexivity|].
          split; [split; auto|]. split; [destruct 1|]. intros z [].
        - simpl in W. destruct (view k s t) as [w|] eqn:Wt; [|discriminate]. destruct (view_terms (view k s) tl) as [ws|] eqn:Wl; [|discriminate].
          injection W as <-. destruct F as [F1 F2]. cbn [snd] in F1.
          unfold all_terms in ND. cbn [map concat snd] in ND. fold (all_terms k s tl) in ND.
          apply NoDup_app_iff in ND as (ND1 & ND2 & ND3).
          assert (Lt : t < length (objs s)) by (apply (L x); simpl; auto).
          destruct (IH t s w V Lt Wt ND1 F1) as (s1 & q1 & w1 & E1 & X1 & Y1 & Z1 & U1 & M1).
          assert (Wne : forall y z, In (y, z) tl -> view k s z <> None) by (intros y z I; eapply view_terms_In; eauto).
          assert (AG : forall y z, In (y, z) tl -> closed (isin (parts k s z)) any s /\ agree (isin (parts k s z)) any s s1).
          { intros y z I. split; [apply parts_closed; eauto|]. apply (wrote_agree _ Z1). intros u Iu. split.
            - eapply parts_below; [exact V| |exact Iu]. apply (L y); simpl; auto.
            - intros Ju. apply (ND3 u Ju). apply all_terms_In. eauto. }
          assert (VW : forall y z, In (y, z) tl -> view k s1 z = view k s z).
          { intros y z I. destruct (AG y z I) as [C A]. apply (view_agree C A). apply parts_self. eauto. }
          assert (PT : forall y z, In (y, z) tl -> parts k s1 z = parts k s z).
          { intros y z I. destruct (AG y z I) as [C A]. apply (parts_agree C A). apply parts_self. eauto. }
          assert (AT : all_terms k s1 tl = all_terms k s tl).
          { unfold all_terms. f_equal. apply map_ext_in. intros [y z] I. cbn [snd]. eauto. }
          destruct (IHl s1 ws) as (s2 & l & ws' & E2 & X2 & Y2 & Z2 & U2 & M2).
          { exact (wr_valid Z1). } { intros y z I. pose proof (wr_len Z1). specialize (L y z (or_intror I)). lia. }
          { rewrite (view_terms_ext _ (view k s)); auto. } { rewrite AT; auto. } { exact F2. }
          rewrite AT in *.
          assert (Q1 : closed (isin (parts k s1 q1)) any s1 /\ agree (isin (parts k s1 q1)) any s1 s2).
          { split; [apply parts_closed; congruence|]. apply (wrote_agree _ Z2). intros z Iz. split.
            - eapply parts_below; [exact (wr_valid Z1)|exact U1|exact Iz].
            - intros Jz. destruct (M1 z Iz) as [K|K]; [exact (ND3 z K Jz)|].
              apply all_terms_In in Jz as (y & u & I & J). pose proof (@parts_below k s V u (L y u (or_intror I)) z J). lia. }
          destruct Q1 as [C1 A1].
          assert (I1 : In q1 (parts k s1 q1)) by (apply parts_self; congruence).
          exists s2, ((x, q1) :: l), ((x, w1) :: ws'). split; [|split; [|split; [|split; [|split]]]].
          + unfold fix_terms in *. cbn [deep_terms]. cbn beta. rewrite E1. change (deep_terms (fun t0 => fix_ k t0 i v) tl s1 = (s2, Ok l)) in E2.
            fold (deep_terms (S := S) (fun t0 => fix_ k t0 i v)). rewrite E2. reflexivity.
          + cbn [view_terms]. fold (view_terms (S := S) (view k s2)). rewrite X2. rewrite (view_agree C1 A1); [now rewrite X1|exact I1].
          + intros o Lo. specialize (Y1 o Lo). specialize (Y2 o Lo). simpl in Y2 |- *. now rewrite Y1, Y2.
          + split.
            * rewrite (wr_b Z2). apply (wr_b Z1).
            * pose proof (wr_len Z1). pose proof (wr_len Z2). lia.
            * apply (wr_valid Z2).
            * intros z Lz Nz. unfold all_terms in Nz. cbn [map concat snd] in Nz. fold (all_terms k s tl) in Nz. rewrite in_app_iff in Nz.
              pose proof (wr_len Z1). rewrite (wr_frame Z2) by (auto; lia). apply (wr_frame Z1); auto.
          + intros y z [Q|Q]; [injection Q as <- <-; pose proof (wr_len Z2); lia|eauto].
          + intros z Iz. unfold all_terms in Iz. cbn [map concat snd] in Iz. fold (all_terms k s2 l) in Iz.
            unfold all_terms at 1. cbn [map concat snd]. fold (all_terms k s tl). rewrite in_app_iff. pose proof (wr_len Z1). pose proof (wr_len Z2).
            apply in_app_iff in Iz as [Iz|Iz].
            * rewrite (parts_agree C1 A1) in Iz by exact I1. destruct (M1 z Iz) as [?|?]; [auto|right; lia].
            * destruct (M2 z Iz) as [?|?]; [auto|right; lia]. }
      destruct (view_terms (view k s) ts) as [vs|] eqn:Wt; [|discriminate]. cbn [option_map] in W. injection W as <-.
      apply NoDup_cons_iff in ND as [Nr ND]. unfold new_obj. set (s0 := St (bufs s) (objs s ++ [OSum ts])).
      set (q := length (objs s)). pose proof (V _ _ L E) as Hts. simpl in Hts.
      assert (Ag : agree (below (length (objs s))) (below (length (bufs s))) s s0).
      { split; unfold below; subst s0; cbn [objs bufs]; intros; [now rewrite nth_error_app1|auto]. }
      assert (V0 : valid s0).
      { intros z o Lz Q. unfold below in *. subst s0. cbn [objs bufs] in *. rewrite app_length in *. simpl in Lz |- *.
        destruct (Nat.lt_ge_cases z (length (objs s))) as [Z|Z].
        - rewrite nth_error_app1 in Q by auto. apply V in Q; auto. eapply held_weaken; [exact Q| |]; unfold below; intros; lia.
        - rewrite nth_error_app2 in Q by auto. destruct (z - _) as [|[|?]]; try discriminate. injection Q as <-. simpl. intros x u Iu.
          specialize (Hts x u Iu). unfold below in Hts. lia. }
      assert (VW : forall y z, In (y, z) ts -> view k s0 z = view k s z) by (intros y z Iz; apply (view_agree V Ag); exact (Hts y z Iz)).
      assert (AT : all_terms k s0 ts = all_terms k s ts).
      { unfold all_terms. f_equal. apply map_ext_in. intros [y z] Iz. cbn [snd]. apply (parts_agree V Ag). exact (Hts y z Iz). }
      assert (L0 : length (objs s0) = Datatypes.S q) by (subst s0 q; cbn [objs]; rewrite app_length; simpl; lia).
      destruct (T ts s0 vs) as (s2 & l & vs' & E2 & X2 & Y2 & Z2 & U2 & M2); auto.
      { intros x u Iu. rewrite L0. specialize (Hts x u Iu). unfold below in Hts. subst q. lia. }
      { rewrite (view_terms_ext _ (view k s)); auto. } { rewrite AT; auto. }
      rewrite AT in *. rewrite E2. pose proof (wr_len Z2) as L2.
      assert (Bq : forall z, In z (all_terms k s ts) -> z < q).
      { intros z Iz. apply all_terms_In in Iz as (x & u & Iu & J). eapply parts_below; [exact V|exact (Hts x u Iu)|exact J]. }
      assert (Nq : ~ In q (all_terms k s2 l)).
      { intros Iq. destruct (M2 q Iq) as [K|K]; [apply Bq in K; lia|rewrite L0 in K; lia]. }
      exists (put_obj q (OSum l) s2), q, (VSum vs'). split; [reflexivity|].
      assert (Hq : nth_error (objs (put_obj q (OSum l) s2)) q = Some (OSum l)) by (apply set_nth_same; lia).
      assert (AG : forall y z, In (y, z) l -> closed (isin (parts k s2 z)) any s2 /\ agree (isin (parts k s2 z)) any s2 (put_obj q (OSum l) s2)).
      { intros y z Iz. split; [apply parts_closed; eapply view_terms_In; eauto|]. split; auto. intros u Iu. cbn [put_obj objs].
        apply set_nth_other. intros <-. apply Nq. apply all_terms_In. eauto. }
      assert (SELF : forall y z, In (y, z) l -> In z (parts k s2 z)) by (intros y z Iz; apply parts_self; eapply view_terms_In; eauto).
      split; [|split; [|split; [|split]]].
      + rewrite view_S, Hq. rewrite (view_terms_ext _ (view k s2)); [now rewrite X2|].
        intros y z Iz. destruct (AG y z Iz) as [C A]. apply (view_agree C A). apply (SELF y). auto.
      + exact Y2.
      + split; cbn [put_obj objs bufs].
        * rewrite (wr_b Z2). reflexivity.
        * rewrite set_nth_length. lia.
        * apply set_nth_valid; [exact (wr_valid Z2)|]. simpl. intros x u Iu. exact (U2 x u Iu).
        * intros z Lz Nz. rewrite set_nth_other by (subst q; lia). rewrite (wr_frame Z2); [|lia|simpl in Nz; tauto].
          subst s0; cbn [objs]. now rewrite nth_error_app1.
      + cbn [put_obj objs]. rewrite set_nth_length. lia.
      + intros z. rewrite parts_S, Hq. cbn [put_obj objs]. rewrite set_nth_length. intros [<-|Iz].
        * right. lia.
        * assert (AT2 : all_terms k (put_obj q (OSum l) s2) l = all_terms k s2 l).
          { unfold all_terms. f_equal. apply map_ext_in. intros [y u] Iu. cbn [snd]. destruct (AG y u Iu) as [C A].
            apply (parts_agree C A). apply (SELF y u Iu). }
          rewrite AT2 in Iz.
          apply (M2 z) in Iz as [K|K]; [left; right; auto|right]. rewrite L0 in K. unfold q in K. lia.
  Qed.
End ObjFix.
