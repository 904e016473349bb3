(** * The exhaustive search returns a cheapest pairwise path *)
From Coq Require Import List Arith ZArith Lia Bool Permutation.
From Verif Require Import Base PathSpec ModelOrder OrderProofs ModelPath PathProofs ModelOpt OptProofs OptimalSpec.
Import ListNotations.
Set Implicit Arguments.
Open Scope nat_scope.

Lemma bool_iff (p q : bool) : (p = true <-> q = true) -> p = q.
Proof. destruct p, q; intuition congruence. Qed.
Definition same (k l : list nat) : Prop := forall x, In x k <-> In x l.
Lemma same_refl k : same k k.
Proof. intros x. tauto. Qed.
Lemma same_sym k l : same k l -> same l k.
Proof. intros H x. rewrite (H x). tauto. Qed.
Lemma same_trans k l m : same k l -> same l m -> same k m.
Proof. intros H1 H2 x. rewrite (H1 x). apply H2. Qed.

Section Cost.
  Variables (size : nat -> Z) (output : list nat) (inputs : list (list nat)).
  Let n := length inputs.
  Let idx := indices_of inputs.
  Let needed := needed output inputs.
  Let ti := tensor_indices output inputs.
  Let step := step_flops size output inputs.
  Let tf := tree_flops size output inputs.
  Let occurs := occurs output inputs.
  Hypothesis size_pos : forall x, (0 <= size x)%Z.

  Lemma needed_iff t x : needed t x = true <-> In x output \/ exists j, j < n /\ ~ In j (tree_leaves t) /\ In x (idx j).
  Proof.
    unfold needed, OptimalSpec.needed. rewrite orb_true_iff, mem_In, existsb_exists. split; (intros [H|H]; [left; auto|right]).
    - destruct H as (j & I & H). apply in_seq in I. apply andb_true_iff in H as [H1 H2]. apply negb_true_iff in H1.
      exists j. split; [unfold n; lia|]. split; [apply mem_false; auto|apply mem_In; auto].
    - destruct H as (j & Lj & H1 & H2). exists j. split; [apply in_seq; unfold n in Lj; lia|].
      apply andb_true_iff. split; [apply negb_true_iff, mem_false; auto|apply mem_In; auto].
  Qed.
  Lemma needed_other t x : (exists o, occurs x o /\ match o with Some j => ~ In j (tree_leaves t) | None => True end) <-> needed t x = true.
  Proof.
    rewrite needed_iff. split.
    - intros ([j|] & O & H); [right|left; auto]. destruct O. exists j. auto.
    - intros [H|(j & L & H & I)]; [exists None; split; auto|exists (Some j)]. split; auto. split; auto.
  Qed.
  Lemma ti_node l x : In x (ti (PNode l)) <-> needed (PNode l) x = true /\ exists i, In i (tree_leaves (PNode l)) /\ In x (idx i).
  Proof. unfold ti, tensor_indices. rewrite nodup_In, filter_In, in_flat_map. tauto. Qed.
  Lemma ti_leaf t x : In x (ti t) -> exists i, In i (tree_leaves t) /\ In x (idx i).
  Proof. destruct t as [i|l]; intros I; [exists i; split; simpl; auto|]. apply ti_node in I. tauto. Qed.

  (** the indices of a node from those of its children *)
  Lemma leaves_two a b : tree_leaves (PNode [a; b]) = tree_leaves a ++ tree_leaves b.
  Proof. simpl. rewrite app_nil_r. auto. Qed.
  Lemma ti_pair a b x : (forall i, In i (tree_leaves a) -> ~ In i (tree_leaves b)) -> (forall i, In i (tree_leaves a ++ tree_leaves b) -> i < n) ->
    In x (ti (PNode [a; b])) <-> needed (PNode [a; b]) x = true /\ (In x (ti a) \/ In x (ti b)).
  Proof.
    intros D R. split.
    - intros I. apply ti_node in I as (Hn & i & Ii & Ix). split; auto. rewrite leaves_two in Ii.
      assert (Hna : needed a x = true) by (rewrite needed_iff in *; rewrite leaves_two in Hn; destruct Hn as [Hn|(j & L & H & I)]; [left; auto|right; exists j; rewrite in_app_iff in H; tauto]).
      assert (Hnb : needed b x = true) by (rewrite needed_iff in *; rewrite leaves_two in Hn; destruct Hn as [Hn|(j & L & H & I)]; [left; auto|right; exists j; rewrite in_app_iff in H; tauto]).
      apply in_app_or in Ii as [Ii|Ii]; [left; destruct a as [k|l]|right; destruct b as [k|l]].
      + destruct Ii as [<-|[]]. auto.
      + apply ti_node. split; auto. exists i. auto.
      + destruct Ii as [<-|[]]. auto.
      + apply ti_node. split; auto. exists i. auto.
    - intros [Hn [I|I]]; apply ti_node; (split; [auto|]); apply ti_leaf in I as (i & Ii & Ix); exists i; (split; [rewrite leaves_two, in_app_iff; auto|auto]).
  Qed.

  (** without hyperedges an index that two tensors share is summed over, and the others are needed when
      they occur somewhere else *)
  Hypothesis NH : no_hyperedges output inputs.
  Lemma needed_local a b x : NoDup (tree_leaves a ++ tree_leaves b) -> (forall i, In i (tree_leaves a ++ tree_leaves b) -> i < n) ->
    In x (ti a) \/ In x (ti b) ->
    (needed (PNode [a; b]) x = true <-> ~ (In x (ti a) /\ In x (ti b)) /\ exists o1 o2, o1 <> o2 /\ occurs x o1 /\ occurs x o2).
  Proof.
    intros Nd R H. rewrite <- needed_other. rewrite leaves_two.
    assert (D : forall i, In i (tree_leaves a) -> ~ In i (tree_leaves b)).
    { intros i Ia Ib. apply in_split in Ia as (l1 & l2 & E). rewrite E, <- app_assoc in Nd. simpl in Nd. apply NoDup_remove_2 in Nd.
      apply Nd. rewrite !in_app_iff. auto. }
    assert (Oa : forall i t, In i (tree_leaves t) -> incl (tree_leaves t) (tree_leaves a ++ tree_leaves b) -> In x (idx i) -> occurs x (Some i)).
    { intros i t I Ic Ix. split; auto. }
    split.
    - intros (o & O & No).
      assert (K : exists i, occurs x (Some i) /\ In i (tree_leaves a ++ tree_leaves b)).
      { destruct H as [H|H]; apply ti_leaf in H as (i & I & Ix); exists i; (split; [|rewrite in_app_iff; auto]).
        - apply (Oa i a); auto. apply incl_appl, incl_refl.
        - apply (Oa i b); auto. apply incl_appr, incl_refl. }
      destruct K as (i & Oi & Ii). assert (Noi : o <> Some i) by (intros ->; auto). split.
      + intros [Ia Ib]. apply ti_leaf in Ia as (ia & Ia & Xa). apply ti_leaf in Ib as (ib & Ib & Xb).
        assert (O1 : occurs x (Some ia)) by (apply (Oa ia a); auto; apply incl_appl, incl_refl).
        assert (O2 : occurs x (Some ib)) by (apply (Oa ib b); auto; apply incl_appr, incl_refl).
        destruct (NH x o (Some ia) (Some ib) O O1 O2) as [E|[E|E]]; [subst o|inversion E; subst|subst o].
        * apply No. apply in_or_app; auto.
        * eapply D; eauto.
        * apply No. apply in_or_app; auto.
      + exists o, (Some i). auto.
    - intros (Nb & o1 & o2 & Ne & O1 & O2).
      assert (main : forall a b, NoDup (tree_leaves a) -> (forall i, In i (tree_leaves a) -> ~ In i (tree_leaves b)) ->
                (forall i, In i (tree_leaves a) -> i < n) ->
                In x (ti a) -> ~ In x (ti b) ->
                exists o, occurs x o /\ match o with Some j => ~ In j (tree_leaves a) /\ ~ In j (tree_leaves b) | None => True end).
      { clear a b Nd R D Oa H Nb. intros a b Nd D R Ia Nb.
        pose proof (ti_leaf _ _ Ia) as (i & Ii & Ix).
        assert (Oi : occurs x (Some i)) by (split; auto; apply R; auto).
        assert (K : exists o, o <> Some i /\ occurs x o).
        { destruct o1 as [j1|]; [|exists None; split; auto; discriminate].
          destruct (Nat.eq_dec j1 i) as [->|Nj]; [exists o2; auto|exists (Some j1); split; auto; congruence]. }
        destruct K as (o & No & Oo). exists o. split; auto. destruct o as [j|]; auto. split.
        - intros Ij. destruct a as [k|l].
          + destruct Ii as [<-|[]]. destruct Ij as [<-|[]]. congruence.
          + apply ti_node in Ia as (Hn & _). apply needed_other in Hn as (o' & O' & N').
            destruct (NH x (Some i) (Some j) o' Oi Oo O') as [E|[E|E]]; [congruence|subst o'; auto|subst o'; auto].
        - intros Ij. apply Nb. destruct Oo as [_ Ixj]. destruct b as [k|l]; [destruct Ij as [<-|[]]; exact Ixj|].
          apply ti_node. split; [|exists j; auto]. apply needed_other. exists (Some i). split; auto. }
      assert (Na : NoDup (tree_leaves a)).
      { clear - Nd. induction (tree_leaves a) as [|y r IH]; [constructor|]. simpl in Nd. inversion Nd; subst. constructor; auto. intros I. apply H1, in_or_app; auto. }
      assert (Nbd : NoDup (tree_leaves b)).
      { clear - Nd. induction (tree_leaves a) as [|y r IH]; auto. simpl in Nd. inversion Nd; auto. }
      destruct H as [H|H].
      + destruct (main a b Na D (fun i I => R i (in_or_app _ _ _ (or_introl I))) H (fun K => Nb (conj H K))) as (o & O & P). exists o. split; auto. destruct o; auto. rewrite in_app_iff. tauto.
      + destruct (main b a Nbd (fun i I1 I2 => D i I2 I1) (fun i I => R i (in_or_app _ _ _ (or_intror I))) H (fun K => Nb (conj K H))) as (o & O & P). exists o. split; auto. destruct o; auto. rewrite in_app_iff. tauto.
  Qed.

  Lemma prod_perm l l' : Permutation l l' -> fold_right Z.mul 1%Z (map size l) = fold_right Z.mul 1%Z (map size l').
  Proof. induction 1; simpl; try lia. Qed.
  Lemma prod_same k l : NoDup k -> NoDup l -> same k l -> fold_right Z.mul 1%Z (map size k) = fold_right Z.mul 1%Z (map size l).
  Proof. intros A B H. apply prod_perm, NoDup_Permutation; auto. Qed.
  Lemma prod_ge l : (0 <= fold_right Z.mul 1 (map size l))%Z.
  Proof. induction l as [|x r IH]; simpl; [lia|]. specialize (size_pos x). nia. Qed.

  (** two steps on tensors with the same indices *)
  Definition apart (a b : ptree) : Prop := NoDup (tree_leaves a ++ tree_leaves b) /\ forall i, In i (tree_leaves a ++ tree_leaves b) -> i < n.
  Lemma apart_disj a b : apart a b -> forall i, In i (tree_leaves a) -> ~ In i (tree_leaves b).
  Proof.
    intros [Nd _] i Ia Ib. apply in_split in Ia as (l1 & l2 & E). rewrite E, <- app_assoc in Nd. simpl in Nd. apply NoDup_remove_2 in Nd.
    apply Nd. rewrite !in_app_iff. auto.
  Qed.
  Lemma step_gen a b k1 k2 (keep : nat -> bool) : same k1 (ti a) -> same k2 (ti b) ->
    (forall x, In x (ti a) \/ In x (ti b) -> keep x = needed (PNode [a; b]) x) ->
    step a b = (fold_right Z.mul 1 (map size (nodup Nat.eq_dec (k1 ++ k2))) *
                (if existsb (fun x => mem x k2 && negb (keep x)) k1 then 2 else 1))%Z.
  Proof.
    intros S1 S2 K. unfold step, step_flops. f_equal.
    - apply prod_same; [apply NoDup_nodup|apply NoDup_nodup|]. intros x. rewrite !nodup_In, !in_app_iff. fold ti. rewrite (S1 x), (S2 x). tauto.
    - replace (existsb (fun x => mem x k2 && negb (keep x)) k1) with
        (existsb (fun x => mem x (tensor_indices output inputs b) && negb (OptimalSpec.needed output inputs (PNode [a; b]) x)) (tensor_indices output inputs a)); auto.
      apply bool_iff. rewrite !existsb_exists. split; intros (x & I & H); exists x; (split; [apply S1; auto|]); apply andb_true_iff in H as [H1 H2]; apply mem_In in H1; apply andb_true_iff; (split; [apply mem_In, S2; auto|]).
      + rewrite K; auto.
      + rewrite K in H2; auto. left. apply S1. auto.
  Qed.
  Lemma step_local a b a' b' : apart a b -> apart a' b' -> same (ti a) (ti a') -> same (ti b) (ti b') ->
    same (ti (PNode [a; b])) (ti (PNode [a'; b'])) /\ step a b = step a' b'.
  Proof.
    intros [N1 R1] [N2 R2] Sa Sb.
    assert (E : forall x, In x (ti a) \/ In x (ti b) -> needed (PNode [a'; b']) x = needed (PNode [a; b]) x).
    { intros x H. apply bool_iff. rewrite !needed_local; auto; [|rewrite <- (Sa x), <- (Sb x); auto]. rewrite (Sa x), (Sb x). tauto. }
    split.
    - intros x. rewrite !ti_pair; auto using (apart_disj (conj N1 R1)), (apart_disj (conj N2 R2)).
      rewrite <- (Sa x), <- (Sb x). split; intros [H1 H2]; (split; [|auto]); [rewrite E|rewrite <- E]; auto.
    - rewrite (@step_gen a b (ti a') (ti b') (needed (PNode [a'; b']))); auto using same_sym.
  Qed.

  (** operands taken in the other order *)
  Inductive sw : ptree -> ptree -> Prop :=
  | sw_leaf i : sw (PLeaf i) (PLeaf i)
  | sw_keep a b a' b' : sw a a' -> sw b b' -> sw (PNode [a; b]) (PNode [a'; b'])
  | sw_swap a b a' b' : sw a a' -> sw b b' -> sw (PNode [a; b]) (PNode [b'; a']).
  Lemma sw_refl t : binary t -> sw t t.
  Proof.
    revert t. fix F 1. intros [i|l] B; [constructor|]. destruct l as [|a [|b [|]]]; try destruct B. constructor; apply F; auto.
  Qed.
  Lemma needed_perm t t' x : Permutation (tree_leaves t) (tree_leaves t') -> needed t x = needed t' x.
  Proof.
    intros P. apply bool_iff. rewrite !needed_iff. split; (intros [H|(j & L & H & I)]; [left; auto|right; exists j; split; auto; split; auto; intros J; apply H]).
    - eapply Permutation_in; [symmetry; exact P|auto].
    - eapply Permutation_in; [exact P|auto].
  Qed.
  Lemma ti_perm l l' : Permutation (tree_leaves (PNode l)) (tree_leaves (PNode l')) -> same (ti (PNode l)) (ti (PNode l')).
  Proof.
    intros P x. rewrite !ti_node. rewrite (needed_perm _ _ x P).
    split; intros (H & i & I & Ix); (split; [auto|]); exists i; (split; [|auto]).
    - eapply Permutation_in; [exact P|auto].
    - eapply Permutation_in; [symmetry; exact P|auto].
  Qed.
  Lemma sw_all t t' : sw t t' -> Permutation (tree_leaves t) (tree_leaves t') /\ same (ti t) (ti t') /\ tf t = tf t'.
  Proof.
    induction 1 as [i|a b a' b' H1 (P1 & S1 & E1) H2 (P2 & S2 & E2)|a b a' b' H1 (P1 & S1 & E1) H2 (P2 & S2 & E2)].
    - split; [auto|]. split; [apply same_refl|auto].
    - assert (P : Permutation (tree_leaves (PNode [a; b])) (tree_leaves (PNode [a'; b']))) by (rewrite !leaves_two; apply Permutation_app; auto).
      split; auto. split; [apply ti_perm; auto|].
      change ((tf a + tf b + step a b)%Z = (tf a' + tf b' + step a' b')%Z). rewrite E1, E2. f_equal.
      rewrite (@step_gen a b (ti a') (ti b') (needed (PNode [a'; b']))); auto using same_sym. intros x _. symmetry. apply needed_perm; auto.
    - assert (P : Permutation (tree_leaves (PNode [a; b])) (tree_leaves (PNode [b'; a']))) by (rewrite !leaves_two, Permutation_app_comm; apply Permutation_app; auto).
      split; auto. split; [apply ti_perm; auto|].
      change ((tf a + tf b + step a b)%Z = (tf b' + tf a' + step b' a')%Z). rewrite E1, E2. rewrite (Z.add_comm (tf b')). f_equal.
      rewrite (@step_gen a b (ti a') (ti b') (needed (PNode [b'; a']))); auto using same_sym; [|intros x _; symmetry; apply needed_perm; auto].
      unfold step, step_flops. f_equal.
      + apply prod_same; try apply NoDup_nodup. intros x. rewrite !nodup_In, !in_app_iff. fold ti. tauto.
      + match goal with |- (if ?p then _ else _) = (if ?q then _ else _) => replace p with q; auto end.
        apply bool_iff. rewrite !existsb_exists. fold ti. split; intros (x & I & H); exists x; apply andb_true_iff in H as [Hx1 Hx2]; apply mem_In in Hx1; (split; [auto|]); apply andb_true_iff; (split; [apply mem_In; auto|auto]).
  Qed.

  Lemma step_ge a b : (0 <= step a b)%Z.
  Proof. unfold step, step_flops. pose proof (prod_ge (nodup Nat.eq_dec (tensor_indices output inputs a ++ tensor_indices output inputs b))). destruct (existsb _ _); lia. Qed.

  (** trees built from a forest *)
  Inductive built : list ptree -> ptree -> Prop :=
  | built_one t : built [t] t
  | built_step F a b R t : Permutation F (a :: b :: R) -> built (PNode [a; b] :: R) t -> built F t.
  Definition cost (F : list ptree) : Z := fold_right Z.add 0%Z (map tf F).
  Lemma cost_perm F F' : Permutation F F' -> cost F = cost F'.
  Proof. unfold cost. induction 1; simpl; try lia. Qed.
  Lemma cost_app F F' : cost (F ++ F') = (cost F + cost F')%Z.
  Proof. unfold cost. induction F; simpl; lia. Qed.
  Lemma built_le F t : built F t -> (cost F <= tf t)%Z.
  Proof.
    induction 1 as [t|F a b R t P B IH]; [unfold cost; simpl; lia|]. rewrite (cost_perm P). pose proof (step_ge a b).
    change (cost (PNode [a; b] :: R)) with (tf a + tf b + step a b + cost R)%Z in IH. change (cost (a :: b :: R)) with (tf a + (tf b + cost R))%Z. lia.
  Qed.
  Lemma built_perm F F' t : Permutation F F' -> built F t -> built F' t.
  Proof.
    intros P B. destruct B as [t|F a b R t Q B].
    - apply Permutation_length_1_inv in P. subst. constructor.
    - econstructor; [|exact B]. rewrite <- P. auto.
  Qed.
  Lemma built_sw F t : built F t -> forall F', Forall2 sw F F' -> exists t', built F' t' /\ sw t t'.
  Proof.
    induction 1 as [t|F a b R t P B IH]; intros F' H.
    - inversion H; subst. inversion H4; subst. exists y. split; auto. constructor.
    - destruct (Permutation_Forall2 P H) as (G & PG & HG). inversion HG; subst. inversion H4; subst.
      destruct (IH (PNode [y; y0] :: l'0)) as (t' & Bt & St); [constructor; auto; constructor; auto|].
      exists t'. split; auto. econstructor; eauto.
  Qed.
  Lemma built_sub t : binary t -> forall R t', built (t :: R) t' -> built (map PLeaf (tree_leaves t) ++ R) t'.
  Proof.
    revert t. fix F 1. intros [i|l] B R t' H; [exact H|]. destruct l as [|a [|b [|]]]; try destruct B as [Ba Bb]; try destruct B.
    rewrite leaves_two, map_app, <- app_assoc. apply F; auto.
    apply built_perm with (map PLeaf (tree_leaves b) ++ a :: R); [apply Permutation_sym, Permutation_middle|].
    apply F; auto. econstructor; [|exact H]. apply perm_swap.
  Qed.
  Lemma built_all t : pairwise_tree n t -> built (map PLeaf (seq 0 n)) t.
  Proof.
    intros [B P]. apply built_perm with (map PLeaf (tree_leaves t)); [apply Permutation_map; auto|].
    rewrite <- (app_nil_r (map PLeaf (tree_leaves t))). apply built_sub; auto. constructor.
  Qed.
End Cost.
