(** Concrete networks of integer arrays, used beside the theorems about contraction. *)
From Verif Require Import Base Scalar NetSpec ModelArray ModelTN TNInv TNOps TNSpec TNDelta ModelHist TNHist
  TNExact TNValue TNDeltaValue TNEdit ModelContract ContractNet ContractTemplate ContractMain ContractMerge ContractFlat ContractData Examples.
Set Implicit Arguments.
Open Scope nat_scope.

Notation ZA := (nd ZK).
Definition avec (l : list Z) : ZA := nd_vec (S := ZK) l.
(** a matrix with [c] columns, given row by row *)
Definition amat (r c : nat) (l : list Z) : ZA :=
  ND (S := ZK) [r; c] (fun idx => match idx with [i; j] => nth (i * c + j) l 0%Z | _ => 0%Z end).

Definition build (cs : list (call ZA)) : tn ZA := fst (run cs empty_tn).
Definition try_contract (o : order) (split : list name) (n : tn ZA) : res ZA :=
  contract_net (S := ZK) Ok 1024 1 o split n.
(** the entries of the result at the given indices *)
Definition entries_of (r : res ZA) (idxs : list (list nat)) : res (list nat * list Z) :=
  match r with Ok a => Ok (nd_shape a, map (nd_at a) idxs) | Err e => Err e end.

Definition cex := [CAddNode a_ (Some [i_; j_]) (amat 2 3 [1;2;3;4;5;6]%Z) false;
   CAddNode b_ (Some [j_; k_]) (amat 3 2 [1;0;2;1;0;3]%Z) false;
   CAddNode c_ (Some [k_]) (avec [2;7]%Z) false;
   COpenEdge i_ None].
Definition cnet := build cex.
Definition cord : order := [(b_, c_, NS "bc"); (a_, NS "bc", NS "abc")].
Definition cord2 : order := [(a_, b_, NS "ab"); (NS "ab", c_, NS "abc")].
Definition idle_net := build [CAddNode a_ (Some [i_]) (avec [3;4]%Z) false; CAddEdge j_ (Some 2)].
Definition dim1_net := build [CAddNode a_ (Some [i_]) (avec [3]%Z) false; COpenEdge i_ None].
Definition fixed_net := build [CAddNode a_ (Some [i_]) (avec [3;4]%Z) false; CFixEdge i_ [1] false].
Definition dim0_net := build [CAddNode a_ (Some [i_]) (avec []) false].
Definition multi_net := build [CAddNode a_ (Some [i_]) (avec [3;4;5]%Z) false; CFixEdge i_ [1;2] false].
Definition empty_fix := build [CAddNode a_ (Some [i_]) (avec [3;4;5]%Z) false; CFixEdge i_ [1;2] false; CFixEdge i_ [0] false].

(** ** checking the hypotheses of the theorems on concrete networks *)
Fixpoint names_okb (cs : list (call ZA)) : Prop :=
  match cs with [] => True | c :: r => names_given c /\ no_change_fix c /\ names_okb r end.
Lemma names_ok_In cs c : names_okb cs -> In c cs -> names_given c /\ no_change_fix c.
Proof. induction cs as [|q r IH]; simpl; [tauto|]. intros (A & B & C) [<-|I]; auto. Qed.
Lemma build_inv cs : names_okb cs -> snd (run cs empty_tn) = Ok tt -> inv (build cs) /\ fix_nodup (build cs).
Proof.
  intros N E. split.
  - eapply reach_inv; [|apply empty_inv]. apply run_reach; auto. intros _ c I. apply (names_ok_In _ _ N I).
  - apply (@reach_fix_nodup ZA _ (fun _ => @no_change_fix ZA)) with (n := empty_tn); auto.
    + apply run_reach; auto. intros _ c I. apply (names_ok_In _ _ N I).
    + intros e ed fx Q; discriminate Q.
Qed.
(** every node holds an array of the shape of its legs *)
Definition typedb (n : tn ZA) : bool :=
  forallb (fun p => match n_val (snd p) with
                    | Some a => eqb (map (edim n) (n_legs (snd p))) (map Some (nd_shape a))
                    | None => false
                    end) (nodes n).
Lemma typedb_ok n : typedb n = true -> typed (S := ZK) Ok n.
Proof.
  intros H x d G. apply get_In in G. unfold typedb in H. rewrite forallb_forall in H. specialize (H _ G). simpl in H.
  destruct (n_val d) as [a|]; [|discriminate]. apply (proj1 (eqb_eq _ _)) in H. exists a, a. auto.
Qed.
Definition singleb (n : tn ZA) : bool :=
  forallb (fun p => match e_fix (snd p) with Some [_] | None => true | _ => mem (fst p) (opens n) end) (edges n).
Lemma singleb_ok n : singleb n = true -> single_fixes n.
Proof.
  intros H e ed fx G F N. apply get_In in G. unfold singleb in H. rewrite forallb_forall in H. specialize (H _ G).
  simpl in H. rewrite F in H. destruct fx as [|v [|]]; eauto; apply mem_In in H; tauto.
Qed.
Definition plain (x : name) : bool := match x with NS s => negb (String.eqb s "*") | NI _ => true | _ => false end.
Lemma plain_free n : forallb plain (keys (nodes n)) = true -> forallb plain (keys (edges n)) = true ->
  delta_names_free (T := ZA) n /\ ~ In star (keys (nodes n)).
Proof.
  rewrite !forallb_forall. intros H1 H2. split.
  - intros e k. split; intros _ I; [apply H2 in I|apply H1 in I]; discriminate.
  - intros I. apply H1 in I. discriminate.
Qed.
Definition opens_dimb (n : tn ZA) : bool :=
  forallb (fun e => match edim n e with Some _ => true | None => false end) (opens n).

Lemma build_contractible cs : names_okb cs -> snd (run cs empty_tn) = Ok tt ->
  typedb (build cs) && singleb (build cs) && opens_dimb (build cs) &&
  forallb plain (keys (nodes (build cs))) && forallb plain (keys (edges (build cs))) = true ->
  contractible (S := ZK) Ok (build cs).
Proof.
  intros N E H. destruct (build_inv cs N E) as [I F].
  apply andb_true_iff in H as [H H5]. apply andb_true_iff in H as [H H4].
  apply andb_true_iff in H as [H H3]. apply andb_true_iff in H as [H1 H2].
  destruct (plain_free _ H4 H5) as [D St]. constructor; auto.
  - intros e Ie. unfold opens_dimb in H3. rewrite forallb_forall in H3. specialize (H3 _ Ie).
    destruct (edim (build cs) e); [eauto|discriminate].
  - apply typedb_ok; auto.
  - apply singleb_ok; auto.
Qed.

(** schemes *)
Definition nodupb_names (l : list name) : bool := nodupb l.
Definition slicesb (n : tn ZA) (split : list name) : bool :=
  forallb (fun e => negb (fixedb n e) && attachedb n e && (1 <=? size n e)) split.
Fixpoint orderb (cur : list name) (o : order) : bool :=
  match o with
  | [] => length cur =? 1
  | (x, y, z) :: r => negb (eqb x y) && mem x cur && mem y cur && orderb (remove1 y (remove1 x cur) ++ [z]) r
  end.
Lemma orderb_ok o : forall cur, orderb cur o = true -> valid_order cur o.
Proof.
  induction o as [|[[x y] z] r IH]; intros cur H; simpl in *; [apply Nat.eqb_eq; auto|].
  apply andb_true_iff in H as [H H4]. apply andb_true_iff in H as [H H3]. apply andb_true_iff in H as [H1 H2].
  apply mem_In in H2, H3. split; [|auto]. intros ->. rewrite eqb_refl in H1. discriminate.
Qed.
Definition mergeb (n : tn ZA) (split : list name) : bool :=
  forallb (fun e => negb (mem e split)) (opens n) ||
  negb (ContractExec.dlen (fd1_of n ++ fd2_of n split) =? 1).
Definition schemeb (n : tn ZA) (o : order) (split : list name) : bool :=
  match complete_delta (copy_tn n) with
  | (n', Ok tt) => slicesb n' split && (match o with [] => true | _ => orderb (keys (nodes n')) o end) && mergeb n' split
  | _ => false
  end.
Lemma schemeb_ok n o split : schemeb n o split = true -> good_scheme n o split.
Proof.
  unfold schemeb. intros H n' E. rewrite E in H.
  apply andb_true_iff in H as [H H3]. apply andb_true_iff in H as [H1 H2].
  unfold slicesb in H1. rewrite forallb_forall in H1. split; [|split].
  - constructor.
    + intros e I. specialize (H1 e I). apply andb_true_iff in H1 as [H1 _]. apply andb_true_iff in H1 as [H1 _].
      apply negb_true_iff; auto.
    + intros e I. specialize (H1 e I). apply andb_true_iff in H1 as [H1 _]. apply andb_true_iff in H1 as [_ H1]. auto.
    + intros e I. specialize (H1 e I). apply andb_true_iff in H1 as [_ H1]. apply Nat.leb_le in H1. lia.
  - unfold order_okb. destruct o; auto. right. apply orderb_ok; auto.
  - unfold mergeb in H3. apply orb_true_iff in H3 as [H3|H3]; [left|right].
    + rewrite forallb_forall in H3. intros e I J. specialize (H3 e I). apply negb_true_iff, mem_false in H3. auto.
    + apply negb_true_iff, Nat.eqb_neq in H3. auto.
Qed.
