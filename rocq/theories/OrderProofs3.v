(** * Proofs about flattening orders, contraction trees and positions *)
From Coq Require Import List Arith ZArith String Lia Bool Permutation.
From Verif Require Import Base OrderSpec ModelTN ModelContract ModelOrder OrderProofs OrderProofs2 ContractMain.
Import ListNotations.
Set Implicit Arguments.
Open Scope nat_scope.

(** ** Leaves below a tensor *)

Definition look (env : list (name * list name)) (x : name) : list name :=
  match get x env with Some l => l | None => [] end.

Lemma below_keys o : forall env, keys (fold_left below_step o env) = keys env ++ results o.
Proof.
  induction o as [|s r IH]; intros env; simpl.
  - rewrite app_nil_r. auto.
  - rewrite IH. unfold below_step. rewrite keys_app. simpl. rewrite <- app_assoc. auto.
Qed.
Lemma get_app_l {A} (x : name) (a b : list (name * A)) v : get x a = Some v -> get x (a ++ b) = Some v.
Proof.
  induction a as [|[k w] a IH]; simpl; [discriminate|]. destruct (eqb x k); auto.
Qed.
Lemma get_app_r {A} (x : name) (a b : list (name * A)) : get x a = None -> get x (a ++ b) = get x b.
Proof.
  induction a as [|[k w] a IH]; simpl; auto. destruct (eqb x k); [discriminate|auto].
Qed.
Lemma below_grow o : forall env x v, get x env = Some v -> get x (fold_left below_step o env) = Some v.
Proof.
  induction o as [|s r IH]; intros env x v E; simpl; auto. apply IH. unfold below_step. apply get_app_l; auto.
Qed.
Lemma look_grow o env x : In x (keys env) -> look (fold_left below_step o env) x = look env x.
Proof.
  intros I. destruct (key_get _ _ I) as (v & E). unfold look. rewrite E, (below_grow _ _ _ E). auto.
Qed.
(** the table satisfies the equation of every step *)
Lemma below_eq o : forall env, NoDup (keys env ++ results o) ->
  (forall o1 l z o2 x, o = o1 ++ (l, z) :: o2 -> In x l -> In x (keys env) \/ In x (results o1)) ->
  forall l z, In (l, z) o -> look (fold_left below_step o env) z = concat (map (look (fold_left below_step o env)) l).
Proof.
  induction o as [|[l0 z0] r IH]; intros env Nd E l z I; [destruct I|].
  destruct I as [Eq|I].
  - inversion Eq; subst. cbn [fold_left]. set (env' := below_step env (l, z)).
    assert (Ez : get z env' = Some (concat (map (look env) l))).
    { unfold env', below_step. rewrite get_app_r; simpl; [rewrite eqb_refl; auto|].
      apply get_None. intros I. simpl in Nd. apply NoDup_remove_2 in Nd. apply Nd. apply in_or_app; auto. }
    unfold look at 1. rewrite (below_grow r _ _ Ez). f_equal. apply map_ext_in. intros x Ix.
    destruct (E [] l z r x eq_refl Ix) as [J|[]]. rewrite look_grow.
    + destruct (key_get _ _ J) as (v & Ev). unfold look, env', below_step. rewrite Ev.
      rewrite (get_app_l x env _ Ev). auto.
    + unfold env', below_step. rewrite keys_app. apply in_or_app; auto.
  - cbn [fold_left]. apply IH; auto.
    + unfold below_step. rewrite keys_app. simpl. rewrite <- app_assoc. auto.
    + intros o1 l1 z1 o2 x Er Ix. unfold below_step. rewrite keys_app, in_app_iff. simpl.
      destruct (E ((l0, z0) :: o1) l1 z1 o2 x) as [J|[J|J]]; auto. simpl. rewrite Er. auto.
Qed.

Lemma keys_leaves leaves : keys (map (fun x : name => (x, [x])) leaves) = leaves.
Proof. unfold keys. rewrite map_map. simpl. apply map_id. Qed.
Lemma look_leaf leaves x : In x leaves -> look (map (fun x : name => (x, [x])) leaves) x = [x].
Proof.
  intros I. assert (K : In x (keys (map (fun x : name => (x, [x])) leaves))) by (rewrite keys_leaves; auto).
  destruct (key_get _ _ K) as (v & E). unfold look. rewrite E. apply get_In in E. apply in_map_iff in E.
  destruct E as (y & E & _). inversion E; auto.
Qed.

Section Below.
  Variables (leaves : list name) (o : gorder) (fin : name).
  Hypothesis C : complete_order leaves o fin.
  Lemma below_leaf x : In x leaves -> look (below leaves o) x = [x].
  Proof. intros I. unfold below. rewrite look_grow; [apply look_leaf; auto|rewrite keys_leaves; auto]. Qed.
  Lemma below_node l z : In (l, z) o -> look (below leaves o) z = concat (map (look (below leaves o)) l).
  Proof.
    intros I. unfold below. apply below_eq; auto; rewrite keys_leaves; [apply C|apply (co_earlier C)].
  Qed.
End Below.

Lemma concat_perm {A B} (f : A -> list B) l m : Permutation l m -> Permutation (concat (map f l)) (concat (map f m)).
Proof. intros P. rewrite <- !flat_map_concat_map. apply Permutation_flat_map; auto. Qed.
Lemma concat_ext {A B} (f g : A -> list B) l : (forall x, In x l -> Permutation (f x) (g x)) ->
  Permutation (concat (map f l)) (concat (map g l)).
Proof.
  induction l as [|x r IH]; simpl; intros H; auto. apply Permutation_app; [apply H; auto|apply IH; intros; apply H; auto].
Qed.
Lemma concat_single {A} (f : A -> list A) l : (forall x, In x l -> f x = [x]) -> concat (map f l) = l.
Proof.
  induction l as [|x r IH]; simpl; intros H; auto. rewrite H by auto. simpl. f_equal. apply IH. intros; apply H; auto.
Qed.

Lemma below_pool leaves o fin : complete_order leaves o fin -> forall o1 o2 q, o = o1 ++ o2 -> red leaves o1 q ->
  Permutation (concat (map (look (below leaves o)) q)) leaves.
Proof.
  intros C o1. induction o1 as [|[l z] o1 IH] using rev_ind; intros o2 q E R.
  - simpl in R. rewrite <- (concat_perm (look (below leaves o)) R). rewrite concat_single; auto.
    intros x I. eapply below_leaf; eauto.
  - destruct (red_split _ _ _ _ R) as (p & R1 & R2). simpl in R2. destruct R2 as (rest & P & R2).
    rewrite <- (concat_perm _ R2). simpl. rewrite (below_node C l); [|rewrite E; apply in_or_app; left; apply in_or_app; right; left; auto].
    rewrite <- concat_app, <- map_app, <- (concat_perm _ P). apply IH with ((l, z) :: o2); auto.
    rewrite E, <- app_assoc. auto.
Qed.
(** all the leaves are below the last tensor *)
Lemma below_final leaves o fin : complete_order leaves o fin ->
  exists l, get fin (below leaves o) = Some l /\ Permutation l leaves.
Proof.
  intros C. assert (K : In fin (keys (below leaves o))).
  { unfold below. rewrite below_keys. apply in_or_app. right. destruct (co_last C) as (o' & l & ->).
    rewrite results_app. apply in_or_app. right. left. auto. }
  destruct (key_get _ _ K) as (v & E). exists v. split; auto.
  pose proof (below_pool C o [] [fin] (eq_sym (app_nil_r _)) (complete_red C)) as P. simpl in P.
  rewrite app_nil_r in P. unfold look in P. rewrite E in P. auto.
Qed.

(** ** Merging a step into a later one *)

Lemma removelast_mid {A} (a : list A) x b : b <> [] -> removelast (a ++ x :: b) = a ++ x :: removelast b.
Proof.
  intros N. rewrite removelast_app by discriminate. f_equal. destruct b; [congruence|auto].
Qed.

Lemma shuffle (a m b r d : list name) l :
  Permutation (a ++ m ++ b ++ (l :: r) ++ d) (l :: a ++ b ++ (r ++ m) ++ d).
Proof.
  rewrite (app_assoc a m), (app_assoc (a ++ m) b). simpl. rewrite <- Permutation_middle. constructor.
  rewrite <- !app_assoc. apply Permutation_app_head. rewrite (Permutation_app_comm m).
  rewrite <- !app_assoc. do 2 apply Permutation_app_head. apply Permutation_app_comm.
Qed.

(** a tensor that is not used can be left out *)
Lemma red_unframe l B : forall p q, red (l :: p) B q -> ~ In l (operands B) ->
  exists q', Permutation q (l :: q') /\ red p B q'.
Proof.
  induction B as [|[k z] B IH]; intros p q R N.
  - exists p. simpl in *. split; auto. symmetry; auto.
  - destruct R as (rest & P & R). unfold operands in N; simpl in N. rewrite in_app_iff in N.
    assert (Ir : In l rest).
    { assert (In l (k ++ rest)) by (eapply Permutation_in; [apply P|left; auto]). apply in_app_or in H. tauto. }
    destruct (in_split _ _ Ir) as (a & b & E). 
    assert (Pr : Permutation rest (l :: a ++ b)) by (subst; symmetry; apply Permutation_middle).
    destruct (IH (z :: a ++ b) q) as (q' & Pq & Rq).
    + eapply red_perm_l; [|apply R]. rewrite Pr. apply perm_swap.
    + tauto.
    + exists q'. split; auto. simpl. exists (a ++ b). split; auto.
      apply Permutation_cons_inv with l. rewrite P, Pr. symmetry. apply Permutation_middle.
Qed.

Section MergeStep.
  Variables (leaves : list name) (A : gorder) (m : list name) (l : name) (B : gorder) (lhs : list name) (z : name)
            (D : gorder) (fin : name).
  Let old := A ++ (m, l) :: B ++ (lhs, z) :: D.
  Let new := A ++ B ++ (remove1 l lhs ++ m, z) :: D.
  Hypothesis C : complete_order leaves old fin.
  Hypothesis Il : In l lhs.

  Lemma merge_operands : Permutation (operands old) (l :: operands new).
  Proof.
    unfold old, new. unfold operands. rewrite !map_app, !concat_app. simpl. rewrite !map_app, !concat_app. simpl.
    rewrite <- shuffle. do 3 apply Permutation_app_head. apply Permutation_app_tail. apply remove1_perm; auto.
  Qed.
  Lemma merge_results : results old = results A ++ l :: results B ++ z :: results D.
  Proof. unfold old. rewrite results_app. simpl. rewrite results_app. auto. Qed.
  Lemma merge_results_new : results new = results A ++ results B ++ z :: results D.
  Proof. unfold new. rewrite !results_app. auto. Qed.

  Lemma used_once : ~ In l (operands new).
  Proof.
    intros I. assert (N : NoDup (operands old)).
    { eapply Permutation_NoDup; [symmetry; apply (co_once C)|].
      pose proof (co_names C) as N. destruct (co_last C) as (o' & q & E). rewrite E in *. rewrite removelast_results.
      rewrite results_app in N. rewrite app_assoc in N. apply NoDup_app_iff in N. tauto. }
    eapply Permutation_NoDup in N; [|apply merge_operands]. inversion N; auto.
  Qed.

  Lemma merge_complete : complete_order leaves new fin.
  Proof.
    pose proof used_once as Uo. apply red_complete.
    - unfold new. destruct A, B; discriminate.
    - pose proof (co_names C) as N. rewrite merge_results in N. rewrite merge_results_new.
      rewrite app_assoc in *. apply NoDup_remove_1 in N. rewrite <- !app_assoc in *. auto.
    - pose proof (complete_red C) as R. unfold old in R.
      destruct (red_split _ _ _ _ R) as (p1 & R1 & R2). simpl in R2. destruct R2 as (r1 & P1 & R2).
      destruct (red_split _ _ _ _ R2) as (p2 & R3 & R4). simpl in R4. destruct R4 as (r2 & P2 & R4).
      destruct (@red_unframe l B r1 p2) as (p2' & P3 & R5); auto.
      { intros I. apply Uo. unfold new. rewrite !operands_app. apply in_or_app. right. apply in_or_app. auto. }
      unfold new. apply red_app with p1; auto. apply red_app with (m ++ p2').
      + eapply red_perm_l; [symmetry; apply P1|].
        eapply red_perm_l; [apply Permutation_app_comm|]. eapply red_perm_r; [apply Permutation_app_comm|].
        apply red_frame; auto.
      + simpl. exists r2. split; auto. rewrite <- app_assoc.
        assert (P4 : Permutation p2' (remove1 l lhs ++ r2)).
        { apply Permutation_cons_inv with l. rewrite <- P3, P2. rewrite (remove1_perm _ _ Il) at 1. auto. }
        rewrite P4. rewrite !app_assoc. apply Permutation_app_tail. apply Permutation_app_comm.
  Qed.

  (** the leaves below the remaining tensors do not change *)
  Lemma merge_below_pre o1 : forall o2, new = o1 ++ o2 -> forall x, In x leaves \/ In x (results o1) ->
    Permutation (look (below leaves new) x) (look (below leaves old) x).
  Proof.
    pose proof merge_complete as C'.
    induction o1 as [|[l1 z1] o1 IH] using rev_ind; intros o2 E x Hx.
    - destruct Hx as [I|[]]. rewrite !below_leaf; auto.
    - rewrite <- app_assoc in E. simpl in E. specialize (IH _ E). rewrite results_app, in_app_iff in Hx. simpl in Hx.
      destruct Hx as [I|[I|[<-|[]]]]; auto.
      assert (Is : In (l1, z1) new) by (rewrite E; apply in_or_app; right; left; auto).
      assert (Hl : forall y, In y l1 -> Permutation (look (below leaves new) y) (look (below leaves old) y)).
      { intros y Iy. apply IH. eapply (co_earlier C'); eauto. }
      cbn [snd]. rewrite (below_node C' l1 _ Is). rewrite (concat_ext _ _ l1 Hl).
      assert (Old : forall q w, In (q, w) old -> look (below leaves old) w = concat (map (look (below leaves old)) q)).
      { intros q w I. apply (below_node C q _ I). }
      unfold new in Is. rewrite !in_app_iff in Is. simpl in Is.
      destruct Is as [Is|[Is|[Is|Is]]].
      + rewrite (Old l1 z1); auto. unfold old. apply in_or_app; auto.
      + rewrite (Old l1 z1); auto. unfold old. apply in_or_app; right. right. apply in_or_app; auto.
      + inversion Is; subst. rewrite (Old lhs z1).
        * rewrite map_app, concat_app. rewrite <- (Old m l); [|unfold old; apply in_or_app; right; left; auto].
          rewrite (concat_perm (look (below leaves old)) (remove1_perm _ _ Il)). simpl. apply Permutation_app_comm.
        * unfold old. apply in_or_app. right. right. apply in_or_app. right. left. auto.
      + rewrite (Old l1 z1); auto. unfold old. apply in_or_app; right. right. apply in_or_app; right; right; auto.
  Qed.
End MergeStep.

(** ** The flattening loop *)

(** [o'] keeps the leaves below every tensor it still makes *)
Definition same_below (leaves : list name) (o o' : gorder) : Prop :=
  forall z, In z (results o') -> In z (results o) /\
    exists l l', get z (below leaves o) = Some l /\ get z (below leaves o') = Some l' /\ Permutation l l'.

Lemma below_get leaves o z : In z (leaves ++ results o) -> get z (below leaves o) = Some (look (below leaves o) z).
Proof.
  intros I. assert (K : In z (keys (below leaves o))) by (unfold below; rewrite below_keys, keys_leaves; auto).
  destruct (key_get _ _ K) as (v & E). unfold look. rewrite E. auto.
Qed.
Lemma same_below_refl leaves o : same_below leaves o o.
Proof.
  intros z I. split; auto. exists (look (below leaves o) z), (look (below leaves o) z).
  rewrite below_get by (apply in_or_app; auto). auto.
Qed.
Lemma same_below_trans leaves a b c : same_below leaves a b -> same_below leaves b c -> same_below leaves a c.
Proof.
  intros H1 H2 z I. destruct (H2 z I) as (Ib & l & l' & E & E' & P). destruct (H1 z Ib) as (Ia & k & k' & F & F' & Q).
  split; auto. exists k, l'. repeat split; auto. rewrite E in F'. inversion F'; subst. transitivity k'; auto.
Qed.

Section FlattenLoop.
  Variable size : name -> Z.
  Variable max_size offset : nat.

  Lemma pick_ok rhs len l : forall cof x i m cof', pick size max_size offset rhs len l cof = (Some (x, (i, m)), cof') ->
    In x l /\ get x rhs = Some (i, m).
  Proof.
    induction l as [|y r IH]; intros cof x i m cof' E; cbn [pick] in E; [discriminate|].
    destruct (get y rhs) as [[j k]|] eqn:G.
    - destruct (_ || _)%bool.
      + destruct (IH _ _ _ _ _ E). simpl; auto.
      + destruct (Nat.ltb cof offset).
        * destruct (IH _ _ _ _ _ E). simpl; auto.
        * inversion E; subst. simpl; auto.
    - destruct (IH _ _ _ _ _ E). simpl; auto.
  Qed.

  Lemma rhs_list_ok o : forall i acc x j m, get x (rhs_list i o acc) = Some (j, m) ->
    get x acc = Some (j, m) \/ (i <= j /\ nth_error o (j - i) = Some (m, x)).
  Proof.
    induction o as [|[l z] r IH]; intros i acc x j m E; cbn [rhs_list] in E; auto.
    destruct (IH _ _ _ _ _ E) as [H|[H1 H2]].
    - cbn [fst snd] in H. rewrite get_set in H. destruct (eqb_spec x z) as [->|N]; auto.
      inversion H; subst. right. rewrite Nat.sub_diag. auto.
    - right. split; [lia|]. replace (j - i) with (S (j - S i)) by lia. auto.
  Qed.

  Lemma set_nth_app {A} (a b : list A) x y : set_nth (List.length a) y (a ++ x :: b) = a ++ y :: b.
  Proof. induction a as [|z a IH]; simpl; auto. f_equal. auto. Qed.
  Lemma del_nth_app {A} (a b : list A) x : del_nth (List.length a) (a ++ x :: b) = a ++ b.
  Proof.
    unfold del_nth. induction a as [|z a IH]; simpl; auto. f_equal. auto.
  Qed.

  Lemma In_sorted lhs x : In x (rev (sort_key size (dedup lhs))) -> In x lhs.
  Proof.
    intros I. apply in_rev in I. eapply Permutation_in in I; [|apply sort_key_perm]. rewrite dedup_In in I. auto.
  Qed.

  Lemma flat_loop_ok fuel leaves fin : forall o c cof, complete_order leaves o fin -> 1 <= c -> List.length o - c < fuel ->
    exists o', flat_loop size max_size offset fuel o c cof = Ok o' /\ complete_order leaves o' fin /\ same_below leaves o o'.
  Proof.
    induction fuel as [|fuel IH]; intros o c cof C Hc L; [lia|]. cbn [flat_loop].
    destruct (Nat.ltb_spec c (List.length o)) as [Lc|Lc].
    2:{ exists o. split; auto. split; auto. apply same_below_refl. }
    destruct (nth_error o (List.length o - c)) as [[lhs z]|] eqn:En.
    2:{ apply nth_error_None in En. lia. }
    assert (Skip : forall cof, exists o', flat_loop size max_size offset fuel o (S c) cof = Ok o' /\
      complete_order leaves o' fin /\ same_below leaves o o') by (intros; apply IH; auto; lia).
    destruct (Nat.leb max_size (List.length lhs)); auto.
    destruct (pick _ _ _ _ _ _ _) as [[[l [i m]]|] cof'] eqn:Ep; auto.
    destruct (pick_ok _ _ _ _ Ep) as [Il G]. apply In_sorted in Il.
    apply rhs_list_ok in G. destruct G as [G|[_ G]]; [discriminate|]. rewrite Nat.sub_0_r in G.
    destruct (nth_error_split _ _ En) as (pre & post & Eo & Lpre). rewrite <- Lpre in G.
    assert (Ef : firstn (List.length pre) o = pre) by (rewrite Eo, firstn_app, firstn_all, Nat.sub_diag; simpl; apply app_nil_r).
    rewrite Ef in G. destruct (nth_error_split _ _ G) as (A & B & EA & LA).
    assert (En' : del_nth i (set_nth (List.length o - c) (remove1 l lhs ++ m, z) o) = A ++ B ++ (remove1 l lhs ++ m, z) :: post).
    { rewrite <- Lpre, Eo, set_nth_app, EA, <- app_assoc. simpl. rewrite <- LA. apply del_nth_app. }
    rewrite En'. subst pre. rewrite <- app_assoc in Eo. simpl in Eo. rewrite Eo in C.
    pose proof (merge_complete _ _ _ _ _ _ _ C Il) as C'.
    destruct (IH _ c cof' C' Hc) as (o' & E' & Co & Sb).
    { rewrite Eo in L, Lc. rewrite !app_length in *. simpl in *. rewrite !app_length in *. simpl in *. lia. }
    exists o'. split; auto. split; auto. eapply same_below_trans; [|apply Sb].
    intros w Iw. assert (Iold : In w (results o)).
    { rewrite Eo, results_app. simpl. rewrite results_app. simpl. rewrite !results_app in Iw. simpl in Iw.
      rewrite !in_app_iff in *. simpl. rewrite in_app_iff. simpl. tauto. }
    split; auto. rewrite Eo in *.
    exists (look (below leaves (A ++ (m, l) :: B ++ (lhs, z) :: post)) w),
           (look (below leaves (A ++ B ++ (remove1 l lhs ++ m, z) :: post)) w).
    rewrite !below_get by (apply in_or_app; auto). repeat split; auto. symmetry.
    eapply (@merge_below_pre leaves A m l B lhs z post fin C Il _ []); [rewrite app_nil_r; reflexivity|]. auto.
  Qed.
End FlattenLoop.

Lemma flatten_ok size max_size offset leaves o fin : complete_order leaves o fin ->
  exists o', flatten_order size max_size offset o = Ok o' /\ complete_order leaves o' fin /\ same_below leaves o o'.
Proof. intros C. apply flat_loop_ok; auto. lia. Qed.

(** ** Contraction trees *)

Section CtInd.
  Variable P : ctree -> Prop.
  Hypothesis HL : forall n s, P (CLeaf n s).
  Hypothesis HN : forall n s cs, Forall P cs -> P (CNode n s cs).
  Fixpoint ctree_ind2 (t : ctree) : P t :=
    match t with
    | CLeaf n s => HL n s
    | CNode n s cs => HN n s ((fix go cs : Forall P cs := match cs with
                                | [] => Forall_nil _
                                | c :: r => Forall_cons _ (ctree_ind2 c) (go r)
                                end) cs)
    end.
End CtInd.

Fixpoint ct_leaves (t : ctree) : list name :=
  match t with CLeaf n _ => [n] | CNode _ _ cs => concat (map ct_leaves cs) end.
Fixpoint ct_steps (t : ctree) : gorder :=
  match t with CLeaf _ _ => [] | CNode n _ cs => concat (map ct_steps cs) ++ [(map ct_name cs, n)] end.
(** every inner node has [lo] to 2 children *)
Fixpoint arity (lo : nat) (t : ctree) : Prop :=
  match t with
  | CLeaf _ _ => True
  | CNode _ _ cs => lo <= List.length cs <= 2 /\ fold_right (fun c P => arity lo c /\ P) True cs
  end.
Lemma arity_all lo cs : fold_right (fun c P => arity lo c /\ P) True cs <-> Forall (arity lo) cs.
Proof. induction cs; simpl; split; intros H; auto; [constructor; tauto|]. inversion H; tauto. Qed.

Fixpoint full_orders (cs : list ctree) : res gorder :=
  match cs with
  | [] => Ok []
  | c :: r => do o <- full_order c; do os <- full_orders r; Ok (os ++ o)
  end.
Lemma full_order_node n s cs : full_order (CNode n s cs) =
  if Nat.leb (List.length cs) 2 then do os <- full_orders cs; Ok (os ++ [(map ct_name cs, n)]) else Err AssertionError.
Proof. reflexivity. Qed.

Lemma full_order_ok lo t : arity lo t -> exists o, full_order t = Ok o /\ Permutation o (ct_steps t) /\
  red (ct_leaves t) o [ct_name t].
Proof.
  induction t as [n s|n s cs IH] using ctree_ind2; intros Ar.
  - exists []. simpl. auto.
  - destruct Ar as [Lc Ar]. apply arity_all in Ar.
    assert (H : exists os, full_orders cs = Ok os /\ Permutation os (concat (map ct_steps cs)) /\
      red (concat (map ct_leaves cs)) os (map ct_name cs)).
    { clear Lc. induction cs as [|c r IHr].
      - exists []. simpl. auto.
      - inversion IH; subst. inversion Ar; subst. destruct (H1 H3) as (o & E & P & R).
        destruct (IHr H2 H4) as (os & Es & Ps & Rs). exists (os ++ o). cbn [full_orders]. rewrite E. cbn [bind].
        rewrite Es. cbn [bind]. split; auto. split.
        + simpl. rewrite Ps, P. apply Permutation_app_comm.
        + simpl. apply red_app with (ct_leaves c ++ map ct_name r).
          * eapply red_perm_l; [apply Permutation_app_comm|]. eapply red_perm_r; [apply Permutation_app_comm|].
            apply red_frame; auto.
          * apply (red_frame _ _ [ct_name c]); auto. }
    destruct H as (os & E & P & R). rewrite full_order_node. rewrite (proj2 (Nat.leb_le _ 2)) by lia. rewrite E. cbn [bind].
    exists (os ++ [(map ct_name cs, n)]). split; auto. split; simpl.
    + rewrite P. auto.
    + apply red_app with (map ct_name cs); auto. simpl. exists []. rewrite app_nil_r. auto.
Qed.

(** same steps up to the order of the steps and of the operands of a step *)
Definition same_steps (a b : gorder) : Prop :=
  exists c, Permutation a c /\ Forall2 (fun s s' => snd s = snd s' /\ Permutation (fst s) (fst s')) c b.

Lemma same_steps_refl a : same_steps a a.
Proof. exists a. split; auto. induction a; constructor; auto. Qed.
Lemma same_steps_perm_l a a' b : Permutation a a' -> same_steps a' b -> same_steps a b.
Proof. intros P (c & Q & F). exists c. split; auto. transitivity a'; auto. Qed.
Lemma same_steps_app a a' b b' : same_steps a b -> same_steps a' b' -> same_steps (a ++ a') (b ++ b').
Proof.
  intros (c & P & F) (c' & P' & F'). exists (c ++ c'). split; [apply Permutation_app; auto|apply Forall2_app; auto].
Qed.
Lemma same_steps_trans a b c : same_steps a b -> same_steps b c -> same_steps a c.
Proof.
  intros (x & P & F) (y & Q & G).
  assert (F' : Forall2 (fun s s' => snd s' = snd s /\ Permutation (fst s') (fst s)) b x).
  { clear - F. induction F; constructor; auto; destruct H; split; auto; symmetry; auto. }
  destruct (Permutation_Forall2 Q F') as (x' & Px & Fx). exists x'. split; [transitivity x; auto|].
  clear - Fx G. revert x' Fx. induction G; intros x' Fx; inversion Fx; subst; constructor; auto.
  destruct H, H2. split; [congruence|]. transitivity (fst x); auto.
Qed.
Lemma same_steps_results a b : same_steps a b -> Permutation (results a) (results b).
Proof.
  intros (c & P & F). unfold results. rewrite (Permutation_map snd P). clear P a.
  induction F; simpl; auto. destruct H as [-> _]. constructor. auto.
Qed.
Lemma same_steps_pairwise a b : same_steps a b -> pairwise b -> pairwise a.
Proof.
  intros (c & P & F) H. unfold pairwise in *. rewrite Forall_forall in *.
  assert (Hc : forall s, In s c -> List.length (fst s) = 2).
  { clear P a. induction F; intros s I; [destruct I|]. destruct I as [<-|I].
    - destruct H0 as [_ H0]. rewrite (Permutation_length H0). apply H. left; auto.
    - apply IHF; auto. intros t It. apply H. right; auto. }
  intros s I. apply Hc. eapply Permutation_in; eauto.
Qed.

Section FromOrder.
  Variable sub : name -> list nat.
  Definition tree_at (dic : list (name * ctree)) (x : name) : ctree :=
    match get x dic with Some t => t | None => CLeaf x [] end.
  Definition fsteps dic p := concat (map (fun x => ct_steps (tree_at dic x)) p).
  Definition fleaves dic p := concat (map (fun x => ct_leaves (tree_at dic x)) p).

  Lemma lookups dic l : (forall x, In x l -> exists t, get x dic = Some t) ->
    mapM (fun x => match get x dic with Some t => Ok t | None => Err KeyError end) l = Ok (map (tree_at dic) l).
  Proof.
    induction l as [|x r IH]; intros H; auto. cbn [mapM map]. destruct (H x) as (t & E); [left; auto|].
    unfold tree_at at 1. rewrite E. cbn [bind]. rewrite IH; [auto|]. intros; apply H; right; auto.
  Qed.

  Lemma tree_steps_ok lo o : forall p q dic, red p o q -> NoDup (p ++ results o) ->
    Forall (fun s => lo <= List.length (fst s) <= 2) o ->
    (forall x, In x p -> exists t, get x dic = Some t /\ ct_name t = x /\ arity lo t) ->
    exists dic', tree_steps sub o dic = Ok dic' /\
      (forall x, In x q -> exists t, get x dic' = Some t /\ ct_name t = x /\ arity lo t) /\
      same_steps (fsteps dic' q) (fsteps dic p ++ o) /\ Permutation (fleaves dic' q) (fleaves dic p).
  Proof.
    induction o as [|[l z] r IH]; intros p q dic R Nd Ar H.
    - simpl in R. exists dic. cbn [tree_steps]. split; auto. split; [|split].
      + intros x I. apply H. eapply Permutation_in; [symmetry; apply R|]; auto.
      + rewrite app_nil_r. eapply same_steps_perm_l; [|apply same_steps_refl]. unfold fsteps. apply concat_perm. symmetry; auto.
      + unfold fleaves. apply concat_perm. symmetry; auto.
    - destruct R as (rest & P & R). inversion Ar; subst. cbn [fst] in H2.
      assert (Hl : forall x, In x l -> In x p) by (intros x I; eapply Permutation_in; [symmetry; apply P|apply in_or_app; auto]).
      assert (Hr : forall x, In x rest -> In x p) by (intros x I; eapply Permutation_in; [symmetry; apply P|apply in_or_app; auto]).
      cbn [tree_steps]. rewrite lookups.
      2:{ intros x I. destruct (H x (Hl x I)) as (t & E & _). eauto. }
      cbn [bind]. set (T := ct_make z (sub z) (map (tree_at dic) l)). set (dic1 := set z T dic).
      assert (Ht : forall x, In x p -> tree_at dic1 x = tree_at dic x /\ x <> z).
      { intros x I. assert (N : x <> z).
        { intros ->. apply NoDup_app_iff in Nd. destruct Nd as (_ & _ & D). apply (D z I). left; auto. }
        split; auto. unfold tree_at, dic1. rewrite get_set. destruct (eqb_spec x z); [congruence|auto]. }
      assert (Hz : tree_at dic1 z = T). { unfold tree_at, dic1. rewrite get_set, eqb_refl. auto. }
      pose proof (sort_key_perm (fun c => Z.of_nat (List.length (ct_subs c))) (map (tree_at dic) l)) as Ps.
      set (cs := sort_key (fun c => Z.of_nat (List.length (ct_subs c))) (map (tree_at dic) l)) in *.
      assert (Tn : ct_name T = z /\ arity lo T).
      { split; auto. unfold T, ct_make. fold cs. split.
        - rewrite (Permutation_length Ps), map_length. auto.
        - apply arity_all. eapply Permutation_Forall; [symmetry; apply Ps|]. apply Forall_forall. intros t It.
          apply in_map_iff in It. destruct It as (x & <- & Ix). destruct (H x (Hl x Ix)) as (t & E & _ & A).
          unfold tree_at. rewrite E. auto. }
      destruct (IH (z :: rest) q dic1 R) as (dic' & E & Hq & Ss & Ls); auto.
      { rewrite P in Nd. rewrite <- app_assoc in Nd. apply NoDup_app_iff in Nd. destruct Nd as (_ & Nd & _).
        simpl in Nd. simpl. eapply Permutation_NoDup; [|apply Nd]. symmetry. apply Permutation_middle. }
      { intros x [<-|I].
        - exists T. split; [|auto]. unfold dic1. rewrite get_set, eqb_refl. auto.
        - destruct (H x (Hr x I)) as (t & Et & Hn). exists t. split; auto. unfold dic1. rewrite get_set.
          destruct (Ht x (Hr x I)) as [_ N]. destruct (eqb_spec x z); [congruence|auto]. }
      exists dic'. split; auto. split; auto. split.
      + eapply same_steps_trans; [apply Ss|].
        assert (E1 : fsteps dic1 (z :: rest) = concat (map ct_steps cs) ++ [(map ct_name cs, z)] ++ fsteps dic rest).
        { unfold fsteps. cbn [map concat]. rewrite Hz. unfold T, ct_make. fold cs. cbn [ct_steps].
          rewrite <- app_assoc. f_equal. f_equal. f_equal. apply map_ext_in. intros x I. destruct (Ht x (Hr x I)) as [-> _]. auto. }
        rewrite E1.
        assert (P1 : Permutation (concat (map ct_steps cs)) (fsteps dic l)).
        { unfold fsteps. rewrite (concat_perm ct_steps Ps), map_map. auto. }
        assert (P2 : Permutation (map ct_name cs) l).
        { rewrite (Permutation_map ct_name Ps), map_map. replace (map (fun x => ct_name (tree_at dic x)) l) with l; auto.
          rewrite <- (map_id l) at 1. apply map_ext_in. intros x I. destruct (H x (Hl x I)) as (t & Et & Hn & _).
          unfold tree_at. rewrite Et. auto. }
        assert (P3 : Permutation (fsteps dic p) (fsteps dic l ++ fsteps dic rest)).
        { unfold fsteps. rewrite <- concat_app, <- map_app. apply concat_perm; auto. }
        change ((l, z) :: r) with ([(l, z)] ++ r). rewrite (app_assoc (fsteps dic p)). apply same_steps_app; [|apply same_steps_refl].
        eapply same_steps_trans; [exists (fsteps dic p ++ [(map ct_name cs, z)]); split|].
        * rewrite P1, P3, <- app_assoc. apply Permutation_app_head. apply Permutation_app_comm.
        * instantiate (1 := fsteps dic p ++ [(map ct_name cs, z)]).
          generalize (fsteps dic p ++ [(map ct_name cs, z)]). intros w. induction w; constructor; auto.
        * apply same_steps_app; [apply same_steps_refl|]. exists [(map ct_name cs, z)]. split; auto.
      + rewrite Ls.
        assert (E1 : fleaves dic1 (z :: rest) = concat (map ct_leaves cs) ++ fleaves dic rest).
        { unfold fleaves. cbn [map concat]. rewrite Hz. unfold T, ct_make. fold cs. cbn [ct_leaves].
          do 2 f_equal. apply map_ext_in. intros x I. destruct (Ht x (Hr x I)) as [-> _]. auto. }
        rewrite E1, (concat_perm ct_leaves Ps), map_map. unfold fleaves. rewrite <- concat_app, <- map_app.
        apply concat_perm. symmetry; auto.
  Qed.

  Lemma from_order_ok lo leaves o : complete_order leaves o hash ->
    Forall (fun s => lo <= List.length (fst s) <= 2) o ->
    exists t, from_order sub leaves o = Ok t /\ ct_name t = hash /\ arity lo t /\
      Permutation (ct_leaves t) leaves /\ same_steps (ct_steps t) o.
  Proof.
    intros C Ar. set (dic := map (fun x => (x, CLeaf x (sub x))) leaves).
    assert (Hg : forall x, In x leaves -> get x dic = Some (CLeaf x (sub x))).
    { intros x I. unfold dic. clear - I. induction leaves as [|y r IH]; [destruct I|]. simpl.
      destruct (eqb_spec x y) as [->|N]; auto. apply IH. destruct I; [congruence|auto]. }
    destruct (@tree_steps_ok lo o leaves [hash] dic (complete_red C) (co_names C) Ar) as (dic' & E & Hq & Ss & Ls).
    { intros x I. exists (CLeaf x (sub x)). simpl. auto. }
    destruct (Hq hash) as (t & Et & Hn & At); [left; auto|]. exists t. unfold from_order. fold dic. rewrite E. cbn [bind].
    rewrite Et. split; auto. split; auto. split; auto.
    assert (Eh : tree_at dic' hash = t) by (unfold tree_at; rewrite Et; auto).
    unfold fsteps, fleaves in *. simpl in Ss, Ls. rewrite Eh, app_nil_r in Ss, Ls. split.
    - rewrite Ls. rewrite concat_single; auto. intros x I. unfold tree_at. rewrite Hg; auto.
    - assert (Z0 : forall l, (forall x, In x l -> get x dic = Some (CLeaf x (sub x))) ->
        concat (map (fun x => ct_steps (tree_at dic x)) l) = []).
      { induction l as [|x r IH]; intros H; auto. simpl. unfold tree_at at 1. rewrite H by (left; auto). simpl.
        apply IH. intros; apply H; right; auto. }
      rewrite (Z0 leaves Hg) in Ss. auto.
  Qed.
End FromOrder.

(** serialising a tree with different names gives a complete order *)
Lemma tree_complete lo t : arity lo t -> ct_steps t <> [] -> NoDup (ct_leaves t ++ results (ct_steps t)) ->
  exists o, full_order t = Ok o /\ Permutation o (ct_steps t) /\ complete_order (ct_leaves t) o (ct_name t).
Proof.
  intros A N D. destruct (full_order_ok _ _ A) as (o & E & P & R). exists o. split; auto. split; auto.
  apply red_complete; auto.
  - intros ->. apply Permutation_nil in P. congruence.
  - eapply Permutation_NoDup; [|apply D]. apply Permutation_app_head. apply Permutation_map. symmetry; auto.
Qed.

(** ** Flipping branches *)

Fixpoint ct_size (t : ctree) : nat :=
  match t with CLeaf _ _ => 1 | CNode _ _ cs => S (list_sum (map ct_size cs)) end.

Lemma flip_here_ok dec t : arity 2 t -> arity 2 (flip_here dec t) /\ ct_name (flip_here dec t) = ct_name t /\
  Permutation (ct_leaves (flip_here dec t)) (ct_leaves t) /\
  Permutation (results (ct_steps (flip_here dec t))) (results (ct_steps t)) /\ ct_size (flip_here dec t) = ct_size t.
Proof.
  destruct t as [|nm s [|branch1 [|[|n1 s1 [|branch0 [|stem0 r]]] q]]]; intros A; try (simpl; auto 10; fail).
  cbn [flip_here]. destruct (dec _) as [ns|]; [|auto 10].
  simpl in A. destruct A as (L1 & A1 & (L2 & A0 & As & Ar) & Aq).
  destruct r; [|simpl in L2; lia]. destruct q; [|simpl in L1; lia].
  pose proof (sort_key_perm (fun c => Z.of_nat (List.length (ct_subs c))) [branch1; stem0]) as P.
  unfold ct_make. set (cs := sort_key _ _) in *.
  assert (Lc : List.length cs = 2) by (rewrite (Permutation_length P); auto).
  split; [|split; [auto|split; [|split]]].
  - simpl. rewrite Lc. repeat split; auto. apply arity_all. eapply Permutation_Forall; [symmetry; apply P|]. auto.
  - simpl. rewrite !app_nil_r, (concat_perm ct_leaves P). simpl. rewrite app_nil_r, !app_assoc.
    apply Permutation_app_tail. apply Permutation_app_comm.
  - simpl. rewrite !app_nil_r. rewrite !results_app. simpl.
    assert (E : Permutation (results (concat (map ct_steps cs))) (results (ct_steps branch1) ++ results (ct_steps stem0))).
    { rewrite <- results_app. apply Permutation_map. rewrite (concat_perm ct_steps P). simpl. rewrite app_nil_r. auto. }
    rewrite E. rewrite !app_assoc. repeat apply Permutation_app_tail. apply Permutation_app_comm.
  - simpl. assert (E : list_sum (map ct_size cs) = ct_size branch1 + ct_size stem0).
    { transitivity (list_sum (map ct_size [branch1; stem0])); [|simpl; lia]. clear - P.
      induction P; simpl; lia. }
    rewrite E. lia.
Qed.

Lemma flip_ok dec fuel : forall t, arity 2 t -> ct_size t <= fuel ->
  exists t', flip_branch dec fuel t = Ok t' /\ arity 2 t' /\ ct_name t' = ct_name t /\
    Permutation (ct_leaves t') (ct_leaves t) /\ Permutation (results (ct_steps t')) (results (ct_steps t)).
Proof.
  induction fuel as [|fuel IH]; intros t A L; [destruct t; simpl in L; lia|]. cbn [flip_branch].
  destruct (flip_here_ok dec t A) as (A' & N & Pl & Pr & Sz).
  destruct (flip_here dec t) as [n s|n s cs]; [eauto 10|]. cbn [ct_name] in N. subst n.
  cbn [arity] in A'. destruct A' as [Lc Ac]. apply arity_all in Ac.
  assert (Lf : list_sum (map ct_size cs) <= fuel) by (simpl in Sz; lia).
  assert (H : exists cs', mapM (flip_branch dec fuel) cs = Ok cs' /\ Forall (arity 2) cs' /\ map ct_name cs' = map ct_name cs /\
    Permutation (concat (map ct_leaves cs')) (concat (map ct_leaves cs)) /\
    Permutation (results (concat (map ct_steps cs'))) (results (concat (map ct_steps cs)))).
  { clear - IH Ac Lf. induction cs as [|c r IHr]; [exists []; simpl; auto|]. inversion Ac; subst. simpl in Lf.
    destruct (IH c H1) as (c' & E & A & N & P1 & P2); [lia|]. destruct IHr as (r' & Er & Ar & Nr & Q1 & Q2); auto; [lia|].
    exists (c' :: r'). cbn [mapM]. rewrite E. cbn [bind]. rewrite Er. cbn [bind]. split; auto. split; auto. simpl.
    split; [congruence|]. split; [apply Permutation_app; auto|]. rewrite !results_app. apply Permutation_app; auto. }
  destruct H as (cs' & E & A' & Nn & P1 & P2). rewrite E. cbn [bind]. eexists. split; [reflexivity|].
  split; [|split; [auto|split]].
  - cbn [arity]. split; [|apply arity_all; auto]. rewrite <- (map_length ct_name cs'), Nn, map_length. auto.
  - rewrite <- Pl. auto.
  - rewrite <- Pr. simpl. rewrite !results_app. apply Permutation_app; auto.
Qed.
