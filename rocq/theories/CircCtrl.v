(** The tensors of controlled operations and of superpositions. *)
From Coq Require Import Sorting.Permutation Sorting.Sorted.
From Verif Require Import Base Scalar NetSpec Sums NetAlg ModelArray ModelTN TNInv TNOps TNSpec TNValue TNExact TNEdit
  TNEdit2 ModelVal ModelOps OpsSpec OpsProofs OpsValue Props_Ops ModelContract CircSpec CircSum CircOrder ModelCircuit CircSem CircShape
  CircWire CircStep.
Set Implicit Arguments.

Section Positions.
  Implicit Types (p : role -> bool) (sh : list role).
  Definition pos_from (k : nat) p sh : list nat := map fst (filter (fun x => p (snd x)) (combine (seq k (length sh)) sh)).
  Lemma pos_from_cons k p r sh : pos_from k p (r :: sh) = (if p r then [k] else []) ++ pos_from (Datatypes.S k) p sh.
  Proof. unfold pos_from. simpl. destruct (p r); reflexivity. Qed.
  Lemma pos_from_app p : forall sh1 k sh2, pos_from k p (sh1 ++ sh2) = pos_from k p sh1 ++ pos_from (k + length sh1) p sh2.
  Proof.
    induction sh1 as [|r sh1 IH]; intros k sh2; simpl app; [simpl; rewrite Nat.add_0_r; auto|].
    rewrite !pos_from_cons, IH, <- app_assoc. simpl. f_equal. f_equal. f_equal. lia.
  Qed.
  Lemma pos_from_lt p : forall sh k i, In i (pos_from k p sh) -> k <= i < k + length sh.
  Proof.
    induction sh as [|r sh IH]; intros k i I; [destruct I|]. rewrite pos_from_cons, in_app_iff in I. simpl.
    destruct I as [I|I]; [destruct (p r); simpl in I; [|tauto]; lia|apply IH in I; lia].
  Qed.
  Lemma pos_from_length p : forall sh k, length (pos_from k p sh) = count p sh.
  Proof.
    induction sh as [|r sh IH]; intros k; auto. rewrite pos_from_cons, app_length, IH. unfold count. simpl. destruct (p r); auto.
  Qed.
  Lemma mem_pos p pre r sh : mem (length pre) (positions p (pre ++ r :: sh)) = p r.
  Proof.
    change (positions p (pre ++ r :: sh)) with (pos_from 0 p (pre ++ r :: sh)). rewrite pos_from_app, pos_from_cons. simpl.
    destruct (p r) eqn:E.
    - apply mem_In. apply in_app_iff. right. simpl; auto.
    - apply mem_false. rewrite in_app_iff. intros [I|I]; apply pos_from_lt in I; lia.
  Qed.
  Lemma index_app_notin {X} `{Eqb X} (x : X) l m : ~ In x l -> index_of x (l ++ m) = length l + index_of x m.
  Proof.
    induction l as [|y l IH]; simpl; intros N; auto. destruct (eqb_spec x y) as [->|]; [tauto|]. f_equal. apply IH. tauto.
  Qed.
  Lemma index_pos p pre r sh : p r = true -> index_of (length pre) (positions p (pre ++ r :: sh)) = count p pre.
  Proof.
    intros E. change (positions p (pre ++ r :: sh)) with (pos_from 0 p (pre ++ r :: sh)).
    rewrite pos_from_app, pos_from_cons, E. rewrite index_app_notin by (intros I; apply pos_from_lt in I; lia).
    rewrite pos_from_length. simpl. destruct (eqb_spec (length pre) (length pre)); [lia|congruence].
  Qed.

  (** the legs of the outputs and of the inputs of a controlled operation *)
  Fixpoint out_legs (c k : nat) sh : list nat :=
    match sh with
    | [] => []
    | r :: sh => if is_ctrl r then c :: out_legs (Datatypes.S c) k sh
                 else if is_out r then k :: out_legs c (Datatypes.S k) sh else out_legs c k sh
    end.
  Fixpoint in_legs (c k : nat) sh : list nat :=
    match sh with
    | [] => []
    | r :: sh => if is_ctrl r then c :: in_legs (Datatypes.S c) k sh
                 else if is_in r then k :: in_legs c (Datatypes.S k) sh else in_legs c k sh
    end.
  Lemma ctrl_edges_legs sh : ctrl_edges sh =
    map (fun i => NI (Z.of_nat i)) (out_legs 0 (count is_ctrl sh) sh ++ in_legs 0 (count is_ctrl sh + count is_out sh) sh).
  Proof.
    unfold ctrl_edges. rewrite map_app.
    assert (Lc : length (positions is_ctrl sh) = count is_ctrl sh) by apply (pos_from_length is_ctrl sh 0).
    assert (Lo : length (positions is_out sh) = count is_out sh) by apply (pos_from_length is_out sh 0).
    rewrite Lc, Lo. f_equal.
    - assert (H : forall sh2 pre, pre ++ sh2 = sh ->
        map (fun i => NI (Z.of_nat (if mem i (positions is_ctrl sh) then index_of i (positions is_ctrl sh)
                                    else count is_ctrl sh + index_of i (positions is_out sh))))
            (pos_from (length pre) role_out sh2)
        = map (fun i => NI (Z.of_nat i)) (out_legs (count is_ctrl pre) (count is_ctrl sh + count is_out pre) sh2)).
      { induction sh2 as [|r sh2 IH]; intros pre E; auto. rewrite pos_from_cons, map_app.
        specialize (IH (pre ++ [r])). rewrite <- app_assoc, app_length in IH. simpl in IH. specialize (IH E).
        rewrite Nat.add_1_r in IH. rewrite IH. unfold count in *. rewrite !filter_app, !app_length. simpl.
        assert (Mc : mem (length pre) (positions is_ctrl sh) = is_ctrl r) by (rewrite <- E; apply mem_pos).
        assert (Ix : forall p, p r = true -> index_of (length pre) (positions p sh) = length (filter p pre))
          by (intros p Pr; rewrite <- E; apply index_pos; auto).
        destruct r as [|w]; simpl in *.
        - rewrite Mc. rewrite (Ix is_ctrl eq_refl).
          rewrite Nat.add_1_r, Nat.add_0_r. auto.
        - rewrite Nat.add_0_r. destruct (ends_out w) eqn:Ew; simpl; [|rewrite Nat.add_0_r; auto].
          rewrite Mc. rewrite (Ix is_out Ew).
          rewrite Nat.add_assoc, Nat.add_1_r. auto. }
      specialize (H sh [] eq_refl). simpl in H. rewrite Nat.add_0_r in H. exact H.
    - assert (H : forall sh2 pre, pre ++ sh2 = sh ->
        map (fun i => NI (Z.of_nat (if mem i (positions is_ctrl sh) then index_of i (positions is_ctrl sh)
                                    else count is_ctrl sh + count is_out sh + index_of i (positions is_in sh))))
            (pos_from (length pre) role_in sh2)
        = map (fun i => NI (Z.of_nat i)) (in_legs (count is_ctrl pre) (count is_ctrl sh + count is_out sh + count is_in pre) sh2)).
      { induction sh2 as [|r sh2 IH]; intros pre E; auto. rewrite pos_from_cons, map_app.
        specialize (IH (pre ++ [r])). rewrite <- app_assoc, app_length in IH. simpl in IH. specialize (IH E).
        rewrite Nat.add_1_r in IH. rewrite IH. unfold count in *. rewrite !filter_app, !app_length. simpl.
        assert (Mc : mem (length pre) (positions is_ctrl sh) = is_ctrl r) by (rewrite <- E; apply mem_pos).
        assert (Ix : forall p, p r = true -> index_of (length pre) (positions p sh) = length (filter p pre))
          by (intros p Pr; rewrite <- E; apply index_pos; auto).
        destruct r as [|w]; simpl in *.
        - rewrite Mc. rewrite (Ix is_ctrl eq_refl).
          rewrite Nat.add_1_r, Nat.add_0_r. auto.
        - rewrite Nat.add_0_r. destruct (starts_in w) eqn:Ew; simpl; [|rewrite Nat.add_0_r; auto].
          rewrite Mc. rewrite (Ix is_in Ew).
          rewrite Nat.add_assoc, Nat.add_1_r. auto. }
      specialize (H sh [] eq_refl). simpl in H. rewrite Nat.add_0_r in H. exact H.
  Qed.
  Lemma count_out sh : count role_out sh = count is_ctrl sh + count is_out sh.
  Proof. unfold count. induction sh as [|[|w] sh IH]; simpl; auto. destruct (ends_out w); simpl; lia. Qed.
  Lemma count_in sh : count role_in sh = count is_ctrl sh + count is_in sh.
  Proof. unfold count. induction sh as [|[|w] sh IH]; simpl; auto. destruct (starts_in w); simpl; lia. Qed.

  Lemma out_legs_lt sh : forall c k, (forall i, In i (out_legs c k sh) -> i < c + count is_ctrl sh \/ k <= i < k + count is_out sh).
  Proof.
    unfold count. induction sh as [|[|w] sh IH]; intros c k i; simpl; [tauto| |].
    - intros [<-|I]; [lia|]. apply IH in I. lia.
    - destruct (ends_out w); simpl; [intros [<-|I]; [lia|]|intros I]; apply IH in I; lia.
  Qed.
  Lemma in_legs_lt sh : forall c k, (forall i, In i (in_legs c k sh) -> i < c + count is_ctrl sh \/ k <= i < k + count is_in sh).
  Proof.
    unfold count. induction sh as [|[|w] sh IH]; intros c k i; simpl; [tauto| |].
    - intros [<-|I]; [lia|]. apply IH in I. lia.
    - destruct (starts_in w); simpl; [intros [<-|I]; [lia|]|intros I]; apply IH in I; lia.
  Qed.
  Lemma out_legs_length sh : forall c k, length (out_legs c k sh) = count role_out sh.
  Proof. unfold count. induction sh as [|[|w] sh IH]; intros c k; simpl; auto. destruct (ends_out w); simpl; auto. Qed.
  Lemma in_legs_length sh : forall c k, length (in_legs c k sh) = count role_in sh.
  Proof. unfold count. induction sh as [|[|w] sh IH]; intros c k; simpl; auto. destruct (starts_in w); simpl; auto. Qed.

  Lemma eqb_cons_nat (x y : nat) l m : eqb (x :: l) (y :: m) = Nat.eqb x y && eqb l m.
  Proof. reflexivity. Qed.
  Lemma bits_cons n b l : bits (Datatypes.S n) (b :: l) <-> b < 2 /\ bits n l.
  Proof. unfold bits. simpl. split; [intros [L F]; inversion F; subst; split; auto|intros [B [L F]]; auto]. Qed.
  Lemma bits_S n l : bits (Datatypes.S n) l -> exists b r, l = b :: r /\ b < 2 /\ bits n r.
  Proof. intros B. destruct l as [|b r]; [destruct B; discriminate|]. apply bits_cons in B as [B1 B2]. eauto. Qed.
  Lemma bits_0 l : bits 0 l -> l = [].
  Proof. intros [L _]. apply length_zero_iff_nil; auto. Qed.

  Lemma legs_sel sh : forall (x : nat -> nat) c k l o i,
    bits (count role_out sh) o -> bits (count role_in sh) i ->
    eqb (map x (out_legs c k sh)) o && eqb (map x (in_legs c l sh)) i =
    eqb (sel role_out is_ctrl sh o) (sel role_in is_ctrl sh i) &&
    (eqb (map x (seq c (count is_ctrl sh))) (sel role_out is_ctrl sh o) &&
     (eqb (map x (seq k (count is_out sh))) (sel role_out is_out sh o) &&
      eqb (map x (seq l (count is_in sh))) (sel role_in is_in sh i))).
  Proof.
    unfold count. induction sh as [|[|w] sh IH]; intros x c k l o i Bo Bi; cbn [filter role_out role_in is_ctrl is_out is_in length] in *.
    - apply bits_0 in Bo, Bi. subst. reflexivity.
    - apply bits_S in Bo as (b & o' & -> & _ & Bo). apply bits_S in Bi as (b' & i' & -> & _ & Bi).
      specialize (IH x (Datatypes.S c) k l o' i' Bo Bi).
      cbn [out_legs in_legs is_ctrl sel role_out role_in is_out is_in map seq length]. rewrite !eqb_cons_nat.
      transitivity ((x c =? b) && (x c =? b') && (eqb (map x (out_legs (Datatypes.S c) k sh)) o' && eqb (map x (in_legs (Datatypes.S c) l sh)) i')).
      { destruct (x c =? b), (x c =? b'), (eqb (map x (out_legs _ k sh)) o'), (eqb (map x (in_legs _ l sh)) i'); reflexivity. }
      rewrite IH.
      destruct (Nat.eqb_spec (x c) b) as [E1|N1], (Nat.eqb_spec (x c) b') as [E2|N2], (Nat.eqb_spec b b') as [E3|N3]; subst; try congruence;
        rewrite ?andb_false_r; auto.
    - destruct (ends_out w) eqn:Eo, (starts_in w) eqn:Ei; cbn [length] in *;
        cbn [out_legs in_legs is_ctrl sel role_out role_in is_out is_in map seq length]; rewrite ?Eo, ?Ei;
        cbn [map seq length].
      + apply bits_S in Bo as (b & o' & -> & _ & Bo). apply bits_S in Bi as (b' & i' & -> & _ & Bi).
        cbn [map seq]. rewrite !eqb_cons_nat. specialize (IH x c (Datatypes.S k) (Datatypes.S l) o' i' Bo Bi).
        transitivity ((x k =? b) && (x l =? b') && (eqb (map x (out_legs c (Datatypes.S k) sh)) o' && eqb (map x (in_legs c (Datatypes.S l) sh)) i')).
        { destruct (x k =? b), (x l =? b'), (eqb (map x (out_legs _ _ sh)) o'), (eqb (map x (in_legs _ _ sh)) i'); reflexivity. }
        rewrite IH. destruct (x k =? b), (x l =? b'); simpl; rewrite ?andb_false_r; auto.
      + apply bits_S in Bo as (b & o' & -> & _ & Bo).
        cbn [map seq]. rewrite !eqb_cons_nat. specialize (IH x c (Datatypes.S k) l o' i Bo Bi).
        rewrite <- andb_assoc, IH. destruct (x k =? b); simpl; rewrite ?andb_false_r; auto.
      + apply bits_S in Bi as (b' & i' & -> & _ & Bi).
        cbn [map seq]. rewrite !eqb_cons_nat. specialize (IH x c k (Datatypes.S l) o i' Bo Bi).
        transitivity ((x l =? b') && (eqb (map x (out_legs c k sh)) o && eqb (map x (in_legs c (Datatypes.S l) sh)) i')).
        { destruct (x l =? b'), (eqb (map x (out_legs _ _ sh)) o), (eqb (map x (in_legs _ _ sh)) i'); reflexivity. }
        rewrite IH. destruct (x l =? b'); simpl; rewrite ?andb_false_r; auto.
      + apply IH; auto.
  Qed.
  Lemma sel_bits p q sh : (forall r, q r = true -> p r = true) -> forall x, bits (count p sh) x -> bits (count q sh) (sel p q sh x).
  Proof.
    intros H. unfold count. induction sh as [|r sh IH]; intros x B; simpl in *; [split; auto|].
    destruct (p r) eqn:Pr; simpl in *.
    - apply bits_S in B as (b & y & -> & Bb & B). destruct (q r); [apply bits_cons; auto|auto].
    - destruct (q r) eqn:Qr; [apply H in Qr; congruence|auto].
  Qed.
End Positions.

Section Ctrl.
  Variable S : scalar.
  Notation tval := (tval S).
  Notation env := (env (A := name)).
  Local Open Scope K_scope.
  Add Ring Kring_ctrl : (kring S).

  Lemma twos_dims n : twos n = Some (map Some (repeat 2%nat n)).
  Proof. unfold twos. f_equal. induction n; simpl; f_equal; auto. Qed.
  Lemma in_shape_bits n l : in_shape (repeat 2%nat n) l = true <-> bits n l.
  Proof.
    revert l; induction n as [|n IH]; intros [|b l]; simpl; split; intros H; try discriminate; try (destruct H; discriminate).
    - split; auto.
    - auto.
    - apply andb_true_iff in H as [H1 H2]. apply bits_cons. split; [apply Nat.ltb_lt; auto|apply IH; auto].
    - apply bits_cons in H as [H1 H2]. apply andb_true_iff. split; [apply Nat.ltb_lt; auto|apply IH; auto].
  Qed.
  Lemma bits_app n m a b : bits n a -> bits m b -> bits (n + m) (a ++ b).
  Proof. intros [L1 F1] [L2 F2]. split; [rewrite app_length; lia|apply Forall_app; auto]. Qed.

  Theorem ctrl_net_spec sh (d : tval) :
    tval_shape d = twos (count is_ctrl sh + count is_in sh + count is_out sh) ->
    exists v, ctrl_net sh d = Ok v /\ (complete d -> complete v) /\
      tval_shape v = twos (count role_out sh + count role_in sh) /\
      forall o i, bits (count role_out sh) o -> bits (count role_in sh) i ->
        tval_value v (o ++ i) = ctrl_amp S sh (tval_value d) o i.
  Proof.
    intros Sh.
    replace (count is_ctrl sh + count is_in sh + count is_out sh)%nat with (count is_ctrl sh + count is_out sh + count is_in sh)%nat in Sh by lia.
    set (nc := count is_ctrl sh) in *. set (no := count is_out sh) in *. set (ni := count is_in sh) in *.
    set (N := (nc + no + ni)%nat) in *. rewrite twos_dims in Sh. set (dims := repeat 2%nat N) in *.
    assert (Ld : length dims = N) by apply repeat_length.
    unfold ctrl_net, build. rewrite (@mbind_eq _ _ _ _ _ _ _ _ (@add_first S (NS "TC") d false dims Sh)).
    cbn [modify]. eexists. split; [reflexivity|]. rewrite ctrl_edges_legs. fold nc no.
    set (legs := out_legs 0 nc sh ++ in_legs 0 (nc + no) sh).
    assert (Hl : forall i, In i legs -> (i < N)%nat).
    { intros i I. unfold legs in I. apply in_app_iff in I as [I|I].
      - apply out_legs_lt in I. fold nc no in I. unfold N. lia.
      - apply in_legs_lt in I. fold nc ni in I. unfold N. lia. }
    split; [|split].
    - intros C. pose proof (@complete_one S (NS "TC") d false dims C) as Q. inversion Q as [|? H| |]; subst. constructor. exact H.
    - cbn [tval_shape]. unfold twos. f_equal. simpl opens. rewrite map_map.
      rewrite (map_ext_in _ (fun _ => Some 2%nat)).
      + rewrite <- (out_legs_length sh 0 nc), <- (in_legs_length sh 0 (nc + no)), <- app_length. fold legs.
        generalize legs. intros l. induction l; simpl; f_equal; auto.
      + intros i I. pose proof (@edim_grid S (one_net (NS "TC") d false dims) dims eq_refl) as Eg.
        assert (In (NI (Z.of_nat i)) (range_names (length dims))).
        { unfold range_names. apply in_map_iff. exists i. split; auto. apply in_seq. specialize (Hl i I). lia. }
        assert (G : forall l ds, map (edim (one_net (NS "TC") d false dims)) l = map Some ds -> (forall x, In x ds -> x = 2%nat) -> forall e, In e l -> edim (one_net (NS "TC") d false dims) e = Some 2%nat).
        { clear. induction l as [|a l IH]; intros [|x ds] E Hx e I; simpl in *; try discriminate; [tauto|].
          injection E as E1 E2. destruct I as [<-|I]; [rewrite E1; f_equal; auto|eapply IH; eauto]. }
        apply (G _ _ Eg); auto. intros x Ix. apply repeat_spec in Ix. auto.
    - intros o i Bo Bi. cbn [tval_value].
      rewrite (@value_unfold S _ (range_names (length dims)) dims) by reflexivity. simpl opens.
      set (x := fun (s : env) (j : nat) => s (NI (Z.of_nat j))).
      set (key := sel role_out is_ctrl sh o ++ sel role_out is_out sh o ++ sel role_in is_in sh i).
      assert (Bc : bits nc (sel role_out is_ctrl sh o)).
      { apply sel_bits; auto. intros [|w]; simpl; auto; discriminate. }
      assert (Bo' : bits no (sel role_out is_out sh o)).
      { apply sel_bits; auto. intros [|w]; simpl; auto; discriminate. }
      assert (Bi' : bits ni (sel role_in is_in sh i)).
      { apply sel_bits; auto. intros [|w]; simpl; auto; discriminate. }
      transitivity (esum (box (range_names (length dims)) dims) (fun s : env =>
        kdelta (eqb (map s (range_names (length dims))) key) *
        (kdelta (eqb (sel role_out is_ctrl sh o) (sel role_in is_ctrl sh i)) * tval_value d (map s (range_names (length dims))))) env0).
      { apply esum_ext_all. intros s. unfold terms_prod, tn_terms. simpl nodes.
        assert (E1 : map s (map (fun i => NI (Z.of_nat i)) legs) = map (x s) (out_legs 0 nc sh) ++ map (x s) (in_legs 0 (nc + no) sh)).
        { rewrite map_map. unfold legs. rewrite map_app. reflexivity. }
        rewrite E1. rewrite eqb_app_nat by (rewrite map_length, out_legs_length; symmetry; apply Bo).
        rewrite legs_sel by auto. fold nc no ni.
        assert (E2 : map s (range_names (length dims)) = map (x s) (seq 0 nc) ++ map (x s) (seq nc no) ++ map (x s) (seq (nc + no) ni)).
        { unfold range_names. rewrite map_map, Ld. unfold N. rewrite !seq_app, !map_app, <- app_assoc. reflexivity. }
        assert (E3 : eqb (map s (range_names (length dims))) key =
          eqb (map (x s) (seq 0 nc)) (sel role_out is_ctrl sh o) && (eqb (map (x s) (seq nc no)) (sel role_out is_out sh o) && eqb (map (x s) (seq (nc + no) ni)) (sel role_in is_in sh i))).
        { rewrite E2. unfold key. rewrite eqb_app_nat by (rewrite map_length, seq_length; symmetry; apply Bc).
          rewrite eqb_app_nat by (rewrite map_length, seq_length; symmetry; apply Bo'). reflexivity. }
        rewrite E3. simpl prodf. unfold term_at. simpl.
        rewrite !kdelta_and. ring. }
      rewrite esum_box_pin.
      + unfold ctrl_amp. fold key. f_equal. f_equal. apply upds_map.
        * apply range_names_NoDup.
        * rewrite range_names_length, Ld. unfold key. rewrite !app_length. destruct Bc as [-> _], Bo' as [-> _], Bi' as [-> _]. unfold N; lia.
      + apply range_names_NoDup.
      + rewrite range_names_length. auto.
      + unfold dims. apply in_shape_bits. unfold N, key. rewrite <- Nat.add_assoc. apply bits_app; auto. apply bits_app; auto.
  Qed.

  (** superpositions *)
  Theorem super_terms_spec m : forall (l : list (S * res tval)) (f : list (S * (list nat -> S))) i pre cc,
    Forall2 (fun p q => fst p = fst q /\ exists v, snd p = Ok v /\ complete v /\ tval_shape v = twos m /\
                        forall x, bits m x -> tval_value v x = snd q x) l f ->
    (pre = [] /\ cc = None \/ cc = Some (Some (map Some (repeat 2%nat m)))) ->
    NoDup (keys pre) -> (forall j, In (NI (Z.of_nat j)) (keys pre) -> (j < i)%nat) ->
    Forall (fun p => complete (snd p) /\ tval_shape (snd p) = twos m) pre ->
    (pre <> [] \/ l <> []) ->
    exists v, super_terms i l (TSum pre cc) = Ok v /\ complete v /\ tval_shape v = twos m /\
      forall x, bits m x -> tval_value v x = sumf (fun p => tval_value (snd p) x) pre + sumf (fun q => fst q * snd q x) f.
  Proof.
    induction l as [|[c rv] l IH]; intros f i pre cc F Hc N Hk Hp Ne; inversion F as [|? q ? f' Hq F']; subst.
    - simpl. destruct Ne as [Ne|Ne]; [|congruence]. exists (VSum pre). split; auto.
      assert (P : forall k x, In (k, x) pre -> tval_shape x = Some (map Some (repeat 2%nat m)) /\ complete x).
      { intros k x I. rewrite Forall_forall in Hp. destruct (Hp _ I) as [H1 H2]. simpl in *. rewrite H2, twos_dims. auto. }
      split; [|split].
      + apply complete_sum with (repeat 2%nat m); auto.
      + rewrite twos_dims. apply sum_shape; auto. intros k x I. apply (P k x I).
      + intros x B. simpl. ring.
    - destruct Hq as (Ec & v & Ev & Cv & Sv & Vv). simpl in Ec, Ev. subst. simpl super_terms. cbn [bind].
      rewrite twos_dims in Sv.
      destruct (@C16_scale S (fst q) v (NI 0) (NI 1) (repeat 2%nat m)) as (w & Ew & Sw & Vw & Cw); auto; [discriminate|].
      rewrite Ew. cbn [bind].
      assert (Nk : ~ In (NI (Z.of_nat i)) (keys pre)) by (intros I; apply Hk in I; lia).
      assert (Ea : exists cc', ts_add (NI (Z.of_nat i)) w (TSum pre cc) = (TSum (pre ++ [(NI (Z.of_nat i), w)]) cc', Ok tt) /\ cc' = Some (Some (map Some (repeat 2%nat m)))).
      { destruct Hc as [[-> ->]| ->].
        - eexists. split; [apply (@ts_add_first S (NI (Z.of_nat i)) w (repeat 2%nat m) Sw)|auto].
        - eexists. split; [apply (@ts_add_next S (NI (Z.of_nat i)) w (repeat 2%nat m) pre Sw Nk)|auto]. }
      destruct Ea as (cc' & Ea & Ecc). rewrite Ea.
      destruct (IH f' (Datatypes.S i) (pre ++ [(NI (Z.of_nat i), w)]) cc' F') as (u & Eu & Cu & Su & Vu); auto.
      + rewrite keys_app. apply NoDup_app_iff. split; [auto|split; [repeat constructor; simpl; tauto|]]. intros x I [<-|[]]. auto.
      + intros j. rewrite keys_app, in_app_iff. intros [I|[I|[]]]; [apply Hk in I; lia|]. simpl in I. injection I. lia.
      + apply Forall_app. split; auto. constructor; auto. simpl. rewrite twos_dims. auto.
      + left. intros E. apply app_eq_nil in E as [_ E]. discriminate.
      + exists u. split; auto. split; auto. split; auto. intros x B. rewrite Vu by auto. rewrite sumf_app. simpl.
        rewrite (Vw x) by (apply in_shape_bits; auto). rewrite (Vv x B). ring.
  Qed.
End Ctrl.
