(** * How large the nodes are that simplify() makes *)
From Verif Require Import Base Scalar NetSpec ModelArray ModelTN TNInv TNOps TNSpec TNDelta ModelHist TNHist TNValue TNExact
  TNEdit ModelVal ModelNest NestSpec NestSub NestEnc SimplifySpec.
Set Implicit Arguments.

Section Grow.
  Context {S : scalar}.
  Notation tval := (tval S).
  Notation net := (tn tval).
  Implicit Types (n m : net) (x e : name).
  Variable ord : list name -> list name.
  Variable Hord : forall l, Permutation (ord l) l.

  Lemma edges_of_In n x e : In e (edges_of n x) <-> attached n x e.
  Proof.
    unfold edges_of, attached. destruct (get x (nodes n)) as [nd|]; [rewrite dedup_In|simpl].
    - split; [intros I; exists nd; auto|intros (nd' & G & I); injection G as <-; auto].
    - split; [tauto|intros (nd' & G & _); discriminate].
  Qed.
  Lemma edges_of_NoDup n x : NoDup (edges_of n x).
  Proof. unfold edges_of. destruct (get x (nodes n)); [apply dedup_NoDup|constructor]. Qed.
  Lemma adj_edges_perm n x : wf n -> Permutation (adj_edges n x) (edges_of n x).
  Proof.
    intros W. apply NoDup_Permutation; [|apply edges_of_NoDup|].
    - unfold adj_edges. pose proof (wf_adj_nodup W) as ND. induction (adj n) as [|[a b] l IH]; simpl; [constructor|].
      inversion ND; subst. destruct (eqb_spec x a) as [->|N]; simpl; auto. constructor; auto.
      intros J. apply in_map_iff in J as ([c d] & Q & J). apply filter_In in J as [J Q']. simpl in *. apply eqb_true in Q'. subst. auto.
    - intros e. rewrite edges_of_In. unfold adj_edges. rewrite in_map_iff. split.
      + intros ([y e'] & <- & I). apply filter_In in I as [I Q]. simpl in Q. apply eqb_true in Q. subst y. apply (wf_adj W) in I. exact I.
      + intros A. exists (x, e). split; auto. apply filter_In. split; [apply (wf_adj W); exact A|simpl; apply eqb_refl].
  Qed.
  Lemma adj_edges_att n x e : wf n -> In e (adj_edges n x) <-> attached n x e.
  Proof.
    intros W. rewrite <- edges_of_In. split; intros I; (eapply Permutation_in; [|exact I]); [|symmetry]; apply adj_edges_perm; auto.
  Qed.
  Lemma joins_only_iff n a b e : wf n -> joins_only n a b e = true <->
    attached n a e /\ attached n b e /\ forall y, attached n y e -> y = a \/ y = b.
  Proof.
    intros W. unfold joins_only. rewrite !andb_true_iff, !mem_In, !edges_of_In, forallb_forall. split.
    - intros ((A & B) & H). split; auto. split; auto. intros y (nd & G & I). apply get_In in G. specialize (H _ G). cbn [fst snd] in H.
      apply orb_true_iff in H as [H|H]; [apply orb_true_iff in H as [H|H]; apply eqb_true in H; auto|].
      apply negb_true_iff, mem_false_iff in H. contradiction.
    - intros (A & B & H). split; auto. intros [y nd] I. cbn [fst snd]. destruct (mem e (n_legs nd)) eqn:Em; [|rewrite orb_true_r; auto].
      apply mem_In in Em. assert (Y : y = a \/ y = b) by (apply H; exists nd; split; auto; apply In_get; auto; apply W).
      destruct Y as [-> | ->]; rewrite eqb_refl; rewrite ?orb_true_r; auto.
  Qed.
  Lemma two_nodes n a b e : wf n -> a <> b -> attached n a e -> attached n b e ->
    (length (adj_nodes n e) =? 2)%nat = true <-> forall y, attached n y e -> y = a \/ y = b.
  Proof.
    intros W N A B. rewrite Nat.eqb_eq.
    assert (P : forall y, In y (adj_nodes n e) <-> attached n y e) by (intros y; rewrite adj_nodes_In; apply (wf_adj W)).
    pose proof (@adj_nodes_NoDup S n e W) as ND. split.
    - intros L y Ay. destruct (adj_nodes n e) as [|c [|d [|]]]; try discriminate.
      assert (In a [c; d]) as Ia by (apply P; auto). assert (In b [c; d]) as Ib by (apply P; auto). assert (In y [c; d]) as Iy by (apply P; auto).
      simpl in *. intuition congruence.
    - intros H. assert (Q : Permutation (adj_nodes n e) [a; b]).
      { apply NoDup_Permutation; auto; [constructor; [simpl; intuition congruence|constructor; [simpl; tauto|constructor]]|].
        intros y. rewrite P. simpl. split; [intros Ay; destruct (H y Ay); auto|intros [<-|[<-|[]]]; auto]. }
      apply Permutation_length in Q. exact Q.
  Qed.
  Lemma dedup_perm (l l' : list name) : (forall e, In e l <-> In e l') -> Permutation (dedup l) (dedup l').
  Proof. intros H. apply NoDup_Permutation; try apply dedup_NoDup. intros e. rewrite !dedup_In. apply H. Qed.

  (** the test of the program *)
  Lemma no_larger_iff n a b : wf n -> a <> b ->
    no_larger n a b = true <-> length (merged_edges n a b) <= Nat.max (length (edges_of n a)) (length (edges_of n b)).
  Proof.
    intros W N. unfold no_larger. rewrite (Permutation_length (adj_edges_perm a W)), (Permutation_length (adj_edges_perm b W)).
    assert (U : length (dedup (adj_edges n a ++ adj_edges n b)) = length (dedup (edges_of n a ++ edges_of n b))).
    { apply Permutation_length, dedup_perm. intros e. rewrite !in_app_iff.
      rewrite !adj_edges_att, !edges_of_In by auto. tauto. }
    assert (F : length (filter (fun e => mem e (adj_edges n b) && (length (adj_nodes n e) =? 2)) (adj_edges n a)) =
                length (filter (joins_only n a b) (dedup (edges_of n a ++ edges_of n b)))).
    { apply Permutation_length. apply NoDup_Permutation.
      - apply NoDup_filter. eapply Permutation_NoDup; [symmetry; apply adj_edges_perm; auto|apply edges_of_NoDup].
      - apply NoDup_filter, dedup_NoDup.
      - intros e. rewrite !filter_In, dedup_In, in_app_iff, !edges_of_In, andb_true_iff, mem_In, joins_only_iff by auto.
        rewrite !adj_edges_att by auto. split.
        + intros (A & B & T). split; auto. split; auto. split; auto. apply (two_nodes W N A B). auto.
        + intros (_ & A & B & T). split; auto. split; auto. apply (two_nodes W N A B). auto. }
    rewrite U, F. pose proof (Permutation_length (filter_perm_split (joins_only n a b) (dedup (edges_of n a ++ edges_of n b)))) as L.
    rewrite app_length in L. fold (merged_edges n a b) in L. rewrite Z.leb_le. lia.
  Qed.

  (** what is left when simplify() is done *)
  Lemma combinations2_all (l : list name) a b : In a l -> In b l -> a <> b -> In (a, b) (combinations2 l) \/ In (b, a) (combinations2 l).
  Proof.
    induction l as [|c l IH]; intros Ia Ib N; [destruct Ia|]. cbn [combinations2]. rewrite !in_app_iff.
    destruct Ia as [->|Ia], Ib as [->|Ib]; [congruence|left; left; apply in_map; auto|right; left; apply in_map; auto|].
    destruct (IH Ia Ib N); auto.
  Qed.
  Lemma merged_sym n a b : wf n -> length (merged_edges n a b) = length (merged_edges n b a).
  Proof.
    intros W. apply Permutation_length. unfold merged_edges. apply NoDup_Permutation; try (apply NoDup_filter, dedup_NoDup).
    intros e. rewrite !filter_In, !dedup_In, !in_app_iff, !negb_true_iff.
    assert (Q : joins_only n a b e = joins_only n b a e).
    { destruct (joins_only n a b e) eqn:E1, (joins_only n b a e) eqn:E2; auto.
      - apply joins_only_iff in E1 as (A & B & H); auto. rewrite <- E2. symmetry. apply joins_only_iff; auto. split; auto. split; auto. intros y Ay. destruct (H y Ay); auto.
      - apply joins_only_iff in E2 as (A & B & H); auto. rewrite <- E1. apply joins_only_iff; auto. split; auto. split; auto. intros y Ay. destruct (H y Ay); auto. }
    rewrite Q. tauto.
  Qed.
  Lemma simplify_pair_none n : wf n -> simplify_pair n = None -> forall a b e, a <> b -> attached n a e -> attached n b e ->
    Nat.max (length (edges_of n a)) (length (edges_of n b)) < length (merged_edges n a b).
  Proof.
    intros W E a b e N A B.
    assert (Ia : In a (adj_nodes n e)) by (apply adj_nodes_In, (wf_adj W); auto).
    assert (Ib : In b (adj_nodes n e)) by (apply adj_nodes_In, (wf_adj W); auto).
    assert (Ke : In e (keys (edges n))) by (destruct A as (nd & G & I); eapply (wf_legs W); eauto).
    assert (F : forall c d, In (c, d) (combinations2 (adj_nodes n e)) -> no_larger n c d = false).
    { intros c d I. unfold simplify_pair in E. apply (find_none _ _ E (c, d)). apply in_concat. eexists. split; [apply in_map; exact Ke|auto]. }
    destruct (combinations2_all _ Ia Ib N) as [I|I]; apply F in I.
    - apply Nat.nle_gt. intros L. apply (no_larger_iff W N) in L. congruence.
    - apply Nat.nle_gt. intros L. rewrite (merged_sym a b W), Nat.max_comm in L. apply (no_larger_iff W) in L; auto. congruence.
  Qed.

  (** a merge of the program *)
  Definition bounded_by n n' : Prop := forall y, In y (keys (nodes n')) -> exists z, In z (keys (nodes n)) /\ length (edges_of n' y) <= length (edges_of n z).
  Lemma bounded_trans n1 n2 n3 : bounded_by n1 n2 -> bounded_by n2 n3 -> bounded_by n1 n3.
  Proof. intros A B y I. destruct (B y I) as (z & Iz & L). destruct (A z Iz) as (w & Iw & L'). exists w. split; auto. lia. Qed.

  Lemma simplify_grow : forall ids n, regular n -> no_fixes n -> NoDup ids ->
    (forall x, In x ids -> ~ In x (keys (nodes n))) -> open_edges_simple n ->
    forall rec n', simplify ord ids rec n = (n', Ok tt) -> bounded_by n n'.
  Proof.
    assert (Refl : forall n, bounded_by n n) by (intros n y I; exists y; auto).
    induction ids as [|x ids IH]; intros n R NF ND Nx Os rec n' E; cbn [simplify] in E; unfold mbind at 1, getst in E;
      destruct (simplify_pair n) as [[a b]|] eqn:P; try (injection E as <-; apply Refl).
    - destruct (simplify_pair_ok (proj1 (rg_inv R)) P) as (Nab & Ia & Ib).
      assert (NL : no_larger n a b = true) by (apply find_some in P; apply P).
      destruct (@encapsulate_ok S ord Hord n (Some [a; b]) None None x R) as (n1 & m & E1 & R1 & Rm & _ & zs & fs & Ne & Cy & Cf & Cb).
      { constructor; try discriminate; auto. intros l Q. injection Q as <-. split.
        - constructor; [simpl; intuition congruence|constructor; [simpl; tauto|constructor]].
        - intros c [<-|[<-|[]]]; auto. }
      { intros J. exfalso. apply (Nx x); simpl; auto. }
      unfold mbind at 1 in E. rewrite E1 in E. simpl in Cy. inversion ND; subst.
      pose proof (proj1 (rg_inv R)) as W. pose proof (proj1 (rg_inv R1)) as W1.
      destruct Cb as (Cb & _ & Cn); [discriminate|]. specialize (Cn eq_refl).
      assert (Nxx : ~ In x (keys (nodes n))) by (apply Nx; simpl; auto).
      assert (B1 : bounded_by n n1).
      { intros y Iy. destruct (eqb_spec y x) as [->|Nyx].
        - apply (no_larger_iff W Nab) in NL.
          assert (Le : length (edges_of n1 x) <= length (merged_edges n a b)).
          { apply NoDup_incl_length; [apply edges_of_NoDup|]. intros e I. apply edges_of_In in I. apply (nested_attached_new W1 Ne) in I.
            apply Cb in I as ((y & Iy' & Ay) & Nm). cbn [chosen] in Iy'. unfold merged_edges. apply filter_In. split.
            - rewrite dedup_In, in_app_iff, !edges_of_In. destruct Iy' as [<-|[<-|[]]]; auto.
            - apply negb_true_iff. destruct (joins_only n a b e) eqn:J; auto. exfalso. apply joins_only_iff in J as (A & B & H); auto.
              apply Nm. split; [exists a; split; simpl; auto|]. split.
              + intros Io. apply Nab. eapply Os; eauto.
              + intros z Az. destruct (H z Az) as [-> | ->]; simpl; auto. }
          destruct (Nat.max_spec (length (edges_of n a)) (length (edges_of n b))) as [[_ Em]|[_ Em]]; [exists b|exists a]; (split; [auto|lia]).
        - apply (nested_keys Ne) in Iy as [->|[Iy Ny]]; [congruence|]. exists y. split; auto.
          unfold edges_of. destruct (get y (nodes n)) as [nd|] eqn:G; [|apply get_None in G; contradiction].
          rewrite (proj2 (nested_get W W1 Ne nd Nyx)); auto. }
      destruct rec; [|injection E as <-; exact B1].
      apply bounded_trans with n1; auto. eapply IH; eauto.
      + intros e. unfold is_fixed. rewrite (nested_edge W1 Ne). destruct (mem e fs); auto. apply NF.
      + intros y Iy J. apply (nested_keys Ne) in J as [->|[J _]]; auto. apply (Nx y); simpl; auto.
      + intros e y z Io Ay Az. rewrite (ne_opens Ne) in Io.
        assert (K : forall y, attached n1 y e -> y = x /\ (attached n a e \/ attached n b e) \/ attached n y e /\ ~ In y zs).
        { intros w Aw. destruct (eqb_spec w x) as [->|Nw].
          - left. split; auto. apply (nested_attached_new W1 Ne) in Aw. apply Cb in Aw as ((u & Iu & Au) & _). cbn in Iu.
            destruct Iu as [<-|[<-|[]]]; auto.
          - right. apply (nested_attached W W1 Ne) in Aw; auto. }
        destruct (K y Ay) as [[-> Hy]|[Hy Ny]], (K z Az) as [[-> Hz]|[Hz Nz]]; auto.
        * exfalso. apply Nz, Cy. destruct Hy as [Hy|Hy]; [left|right; left]; eapply Os; eauto.
        * exfalso. apply Ny, Cy. destruct Hz as [Hz|Hz]; [left|right; left]; eapply Os; eauto.
        * eapply Os; eauto.
  Qed.
End Grow.
