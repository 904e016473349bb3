(** One gate of the loop of convert_pure. *)
From Coq Require Import Sorting.Permutation Sorting.Sorted.
From Verif Require Import Base Scalar NetSpec Sums NetAlg ModelArray ModelTN TNInv TNOps TNSpec TNValue TNExact TNEdit
  TNEdit2 ModelVal ModelOps OpsSpec OpsProofs OpsValue ModelContract CircSpec CircSum CircOrder ModelCircuit CircSem CircShape CircWire.
Set Implicit Arguments.

(** ** edges that are not there yet *)
Fixpoint fresh_of (all es : list name) : list name :=
  match es with
  | [] => []
  | e :: r => if mem e all then fresh_of all r else e :: fresh_of (e :: all) r
  end.
Lemma fresh_of_filter es : forall all, NoDup (filter (fun e => negb (mem e all)) es) ->
  fresh_of all es = filter (fun e => negb (mem e all)) es.
Proof.
  induction es as [|e r IH]; intros all N; simpl in *; auto. destruct (mem e all) eqn:M; simpl in *; auto.
  inversion N as [|? ? N1 N2]; subst. f_equal.
  assert (E : filter (fun x => negb (mem x (e :: all))) r = filter (fun x => negb (mem x all)) r).
  { apply filter_ext_in. intros x Ix. simpl. destruct (eqb_spec x e) as [E0|]; auto. subst. simpl.
    destruct (mem e all) eqn:M2; auto. exfalso. apply N1, filter_In. rewrite M2; auto. }
  rewrite IH; [exact E|]. rewrite E; auto.
Qed.
Lemma mem_ext (x : name) l m : (In x l <-> In x m) -> mem x l = mem x m.
Proof. intros E. apply eq_true_iff_eq. rewrite !mem_In. auto. Qed.

Definition two_edge (e : name) : name * edge := (e, Edge (Some 2) None).
Lemma keys_two l : keys (map two_edge l) = l.
Proof. unfold keys. rewrite map_map. apply map_id. Qed.

Section Step.
  Variable S : scalar.
  Notation tval := (tval S).
  Notation env := (env (A := name)).
  Local Open Scope K_scope.
  Add Ring Kring_step : (kring S).

  Lemma new_wires_spec es : forall w (n : tn tval), ~ In NN es -> (forall e, In e (w_all w) <-> In e (keys (edges n))) ->
    exists w', new_wires es w n = (with_edges n (edges n ++ map two_edge (fresh_of (w_all w) es)), Ok w') /\
      w_in w' = w_in w /\ w_out w' = w_out w /\ (forall e, In e (w_all w') <-> In e (keys (edges n)) \/ In e es).
  Proof.
    induction es as [|e r IH]; intros w n NN' H; simpl.
    - exists w. simpl. rewrite app_nil_r, with_edges_same. repeat split; auto; intros; rewrite H in *; tauto.
    - destruct (mem e (w_all w)) eqn:M.
      + destruct (IH w n) as (w' & E & H1 & H2 & H3); [simpl in NN'; tauto|auto|]. exists w'. repeat split; auto.
        * intros I. apply H3 in I. tauto.
        * intros [I|[<-|I]]; apply H3; auto. left. apply H, mem_In; auto.
      + apply mem_false in M. assert (M' : ~ In e (keys (edges n))) by (rewrite <- H; auto).
        rewrite (@mbind_eq _ _ _ _ _ n _ _ (@add_edge_fresh tval e (Some 2%nat) n M' ltac:(simpl in NN'; intros ->; tauto))).
        set (n1 := with_edges n _).
        destruct (IH (Wires (w_in w) (w_out w) (e :: w_all w)) n1) as (w' & E & H1 & H2 & H3); [simpl in NN'; tauto| |].
        { intros x. simpl. unfold n1; simpl. rewrite keys_app, in_app_iff, H. simpl. intuition. }
        exists w'. rewrite E. simpl in *. rewrite <- app_assoc. simpl. repeat split; auto.
        * intros I. apply H3 in I. rewrite keys_app, in_app_iff in I. simpl in I. tauto.
        * intros I. apply H3. rewrite keys_app, in_app_iff. simpl. tauto.
  Qed.

  (** what a gate of the circuit means *)
  Definition means (x : info S) (sh : list role) (a : ampl S) : Prop :=
    i_shape x = Ok sh /\
    match i_fix x with
    | Some (true, k) => sh = [RW [LO]] /\ (k < 2)%nat /\ forall b, a [b] [] = kdelta (Nat.eqb b k)
    | Some (false, k) => sh = [RW [LI]] /\ (k < 2)%nat /\ forall b, a [] [b] = kdelta (Nat.eqb b k)
    | None => exists v, i_val x = Ok v /\ complete v /\ tval_shape v = twos (count role_out sh + count role_in sh) /\
                forall o i, bits (count role_out sh) o -> bits (count role_in sh) i -> tval_value v (o ++ i) = a o i
    end.

  Definition tprod (n : tn tval) (s : env) : S := prodf (term_at s) (tn_terms (@tval_value S) n).

  Record wired (Q : list name) (done : list (act S)) (names : list name) (lim : Z -> Z -> Prop)
         (w : wires) (n : tn tval) : Prop := {
    wd_rep : exists D O, represents Q done (tn_dom n) (tprod n) D O /\
      (forall q, In q Q -> get q (w_in w) = if starts_in (history done q) then Some (D q) else None) /\
      (forall q, In q Q -> get q (w_out w) = if ends_out (history done q) then Some (O q) else None);
    wd_in : NoDup (keys (w_in w)) /\ incl (keys (w_in w)) Q;
    wd_out : NoDup (keys (w_out w)) /\ incl (keys (w_out w)) Q;
    wd_all : forall e, In e (w_all w) <-> In e (keys (edges n));
    wd_dim : forall e, In e (keys (edges n)) -> edim n e = Some 2%nat;
    wd_names : incl (keys (nodes n)) names;
    wd_complete : complete (VNet n);
    wd_edges : forall e, In e (keys (edges n)) ->
      exists t k q, e = NT [NI t; NI k; q] /\ lim t k /\ history done q <> []
  }.

  Lemma get_key {B} (d : list (name * B)) q : missing d q = false <-> In q (keys d).
  Proof.
    unfold missing. destruct (get q d) eqn:G; split; auto; try discriminate.
    - intros _. eapply get_Some_key; eauto.
    - intros I. apply get_None in G. tauto.
  Qed.
  Lemma dom_two (n : tn tval) l : tn_dom (with_edges n (edges n ++ map two_edge l)) = tn_dom n ++ map (fun e => (e, [0; 1]%nat)) l.
  Proof. unfold tn_dom. simpl. rewrite map_app, map_map. auto. Qed.
  Lemma edim_app (n : tn tval) l e : ~ In e l -> edim (with_edges n (edges n ++ map two_edge l)) e = edim n e.
  Proof.
    intros N. unfold edim; simpl. rewrite get_app. destruct (get e (edges n)); auto.
    assert (G : get e (map two_edge l) = None) by (apply get_None; rewrite keys_two; auto). rewrite G. auto.
  Qed.
  Lemma edim_two (n : tn tval) l e : ~ In e (keys (edges n)) -> In e l ->
    edim (with_edges n (edges n ++ map two_edge l)) e = Some 2%nat.
  Proof.
    intros N I. unfold edim; simpl. rewrite get_app. rewrite (proj2 (get_None e (edges n)) N).
    assert (G : In e (keys (map two_edge l))) by (rewrite keys_two; auto).
    destruct (key_get _ _ G) as [ed Ge]. rewrite Ge. apply get_In in Ge. apply in_map_iff in Ge as (x & E & _).
    inversion E; subst; auto.
  Qed.

  Lemma wire_step Q done names lim w n k (p : name * gate (info S)) sh a :
    wired Q done names lim w n -> NoDup Q ->
    means (g_op (snd p)) sh a -> NoDup (g_qubits (snd p)) -> length (g_qubits (snd p)) = length sh ->
    incl (g_qubits (snd p)) Q ->
    (forall q, In q Q -> alternating (word_at (Act (g_qubits (snd p)) (map role_word sh) a) q ++ history done q)) ->
    ~ In (fst p) names -> ~ lim (g_time (snd p)) (Z.of_nat k) ->
    exists w' n', wire_gate k p w n = (n', Ok w') /\
      wired Q (Act (g_qubits (snd p)) (map role_word sh) a :: done) (fst p :: names)
        (fun t' k' => lim t' k' \/ (k' = Z.of_nat k /\ (t' = g_time (snd p) \/ t' = g_time (snd p) + 1)%Z)) w' n'.
  Proof.
    intros [(D & O & R & Hin & Hout) [Ni Ii] [No Io] Hall Hdim Hnames Hcpl Hedges] NQ M Nq Lq Iq Alt Nx Nl.
    set (g := snd p) in *. set (A := Act (g_qubits g) (map role_word sh) a) in *.
    set (t := g_time g) in *. set (no := e_out t k). set (ni := e_in t k).
    destruct M as [Msh M].
    assert (Nouts : NoDup (act_outs A)) by (apply NoDup_filter; auto).
    assert (Nins : NoDup (act_ins A)) by (apply NoDup_filter; auto).
    assert (IoQ : forall q, In q (act_outs A) -> In q Q) by (intros q X; apply Iq; apply (act_outs_on A q X)).
    assert (IiQ : forall q, In q (act_ins A) -> In q Q) by (intros q X; apply Iq; apply (act_ins_on A q X)).
    (* wires *)
    pose proof (@wire_outs_spec t k (act_outs A) w Nouts) as (Wa1 & Wa2 & Wa3 & Wa4 & Wa5 & Wa6).
    set (za := wire_outs t k (act_outs A) w) in *.
    pose proof (@wire_ins_spec t k (act_ins A) (snd za) Nins) as (Wb1 & Wb2 & Wb3 & Wb4 & Wb5).
    set (zb := wire_ins t k (act_ins A) (snd za)) in *.
    assert (Hmeet : forall q, In q (act_outs A) -> history done q <> [] -> starts_in (history done q) = true).
    { intros q X N. rewrite (@alternating_meet (word_at A q) (history done q)); auto.
      - apply act_outs_iff; auto.
      - apply act_outs_iff in X. destruct (word_at A q); [discriminate|congruence]. }
    assert (Hget : forall q, In q (act_outs A) -> get q (w_in w) = if is_nil (history done q) then None else Some (D q)).
    { intros q X. rewrite (Hin q (IoQ q X)). assert (Y := Hmeet q X). destruct (history done q); [auto|].
      rewrite Y by congruence. auto. }
    assert (Eouts : fst za = cons_outs done D A no).
    { rewrite Wa1. unfold cons_outs. apply map_ext_in. intros q X. rewrite (Hget q X). destruct (is_nil (history done q)); auto. }
    set (newq := filter (fun q => is_nil (history done q)) (act_outs A)) in *.
    assert (Fresh_no : forall q, In q newq -> ~ In (no q) (keys (edges n))).
    { intros q X Y. apply filter_In in X as [_ X]. destruct (Hedges _ Y) as (t' & k' & q' & E & _ & Hh).
      unfold no, e_out in E. inversion E; subst. destruct (history done q'); [congruence|discriminate]. }
    assert (Fresh_ni : forall q, ~ In (ni q) (keys (edges n))).
    { intros q Y. destruct (Hedges _ Y) as (t' & k' & q' & E & L & _). unfold ni, e_in in E. inversion E; subst. auto. }
    assert (Nno : NoDup (map no newq)).
    { apply FinFun.Injective_map_NoDup; [|apply NoDup_filter; auto]. intros x y E. unfold no, e_out in E. inversion E; auto. }
    assert (Nni : NoDup (map ni (act_ins A))).
    { apply FinFun.Injective_map_NoDup; auto. intros x y E. unfold ni, e_in in E. inversion E; auto. }
    assert (ND2 : NoDup (map no newq ++ map ni (act_ins A))).
    { apply NoDup_app_iff. repeat split; auto. intros x X Y. apply in_map_iff in X as (q1 & <- & _).
      apply in_map_iff in Y as (q2 & E & _). unfold no, ni, e_out, e_in in E.
      assert (t = t + 1)%Z by congruence. lia. }
    assert (ND : NoDup (keys (tn_dom n) ++ map no newq ++ map ni (act_ins A))).
    { rewrite keys_tn_dom. apply NoDup_app_iff. repeat split; auto.
      - rewrite <- (keys_tn_dom n). apply (rep_nodup R).
      - intros x X Y. apply in_app_iff in Y as [Y|Y]; apply in_map_iff in Y as (q & <- & Iq'); [apply (Fresh_no q)|apply (Fresh_ni q)]; auto. }
    pose proof (@represents_cons S Q done (tn_dom n) (tprod n) D O A ni no R NQ Nq Iq Alt ND) as R'.
    fold newq in R'. rewrite <- Eouts in R'.
    (* the new edges *)
    set (es := fst za ++ fst zb).
    assert (NNes : ~ In NN es).
    { unfold es. rewrite in_app_iff, Wb1, Eouts. intros [X|X].
      - unfold cons_outs in X. apply in_map_iff in X as (q & E & X). destruct (is_nil (history done q)) eqn:Z; [discriminate|].
        assert (In (D q) (keys (edges n))).
        { rewrite <- (keys_tn_dom n). apply (rep_D R); auto. apply Hmeet; auto. destruct (history done q); [discriminate|congruence]. }
        destruct (Hedges _ H) as (? & ? & ? & Y & _). congruence.
      - apply in_map_iff in X as (q & E & _). discriminate. }
    assert (Hold : forall q, In q (act_outs A) -> is_nil (history done q) = false -> In (D q) (keys (edges n))).
    { intros q X Z. rewrite <- (keys_tn_dom n). apply (rep_D R); auto. apply Hmeet; auto. destruct (history done q); [discriminate|congruence]. }
    assert (Hall2 : forall e, In e (w_all (snd zb)) <-> In e (keys (edges n))) by (rewrite Wb4, Wa4; auto).
    assert (Fr : fresh_of (w_all (snd zb)) es = map no newq ++ map ni (act_ins A)).
    { assert (E : filter (fun e => negb (mem e (w_all (snd zb)))) es = map no newq ++ map ni (act_ins A)).
      { unfold es. rewrite filter_app, Eouts, Wb1. f_equal.
        - unfold cons_outs, newq.
          assert (Sub : incl (act_outs A) (act_outs A)) by apply incl_refl. revert Sub.
          generalize (act_outs A) at 1 3 4 as l. induction l as [|q l IH]; intros Sub; simpl; auto.
          assert (Iq0 : In q (act_outs A)) by (apply Sub; simpl; auto).
          assert (Sub' : incl l (act_outs A)) by (intros x Ix; apply Sub; simpl; auto). specialize (IH Sub').
          destruct (is_nil (history done q)) eqn:Z.
          + assert (Mq : mem (no q) (w_all (snd zb)) = false).
            { apply mem_false. rewrite Hall2. apply Fresh_no. apply filter_In; auto. }
            rewrite Mq. simpl. f_equal. exact IH.
          + assert (Mq : mem (D q) (w_all (snd zb)) = true) by (apply mem_In; rewrite Hall2; apply Hold; auto).
            rewrite Mq. simpl. exact IH.
        - assert (G : forall l, filter (fun e => negb (mem e (w_all (snd zb)))) (map (e_in t k) l) = map ni l); [|apply G].
          induction l as [|q l IH]; simpl; auto. fold (e_in t k q).
          assert (Mq : mem (e_in t k q) (w_all (snd zb)) = false) by (apply mem_false; rewrite Hall2; apply (Fresh_ni q)).
          rewrite Mq. simpl. f_equal. exact IH. }
      rewrite fresh_of_filter; rewrite E; auto. }
    destruct (@new_wires_spec es (snd zb) n NNes Hall2) as (w1 & Enew & Hw1 & Hw2 & Hw3).
    rewrite Fr in Enew. set (n1 := with_edges n _) in Enew.
    assert (Dom1 : tn_dom n1 = tn_dom n ++ seg no newq ++ seg ni (act_ins A)).
    { unfold n1. rewrite dom_two, map_app, !map_map. auto. }
    assert (Keys1 : keys (edges n1) = keys (edges n) ++ map no newq ++ map ni (act_ins A)).
    { unfold n1; simpl. rewrite keys_app, keys_two. auto. }
    assert (Dim1 : forall e, In e (keys (edges n1)) -> edim n1 e = Some 2%nat).
    { intros e I. rewrite Keys1, in_app_iff in I. destruct I as [I|I].
      - unfold n1. rewrite edim_app; auto. intros J.
        apply (proj1 (NoDup_app_iff _ _)) in ND as (_ & _ & X). apply (X e); auto. rewrite keys_tn_dom; auto.
      - apply edim_two; auto. intros J. apply (proj1 (NoDup_app_iff _ _)) in ND as (_ & _ & X). apply (X e); auto.
        rewrite keys_tn_dom; auto. }
    rewrite <- Dom1 in R'.
    assert (Les : incl es (keys (edges n1))).
    { intros e Ie. unfold es in Ie. rewrite Keys1, !in_app_iff. rewrite in_app_iff, Wb1, Eouts in Ie. destruct Ie as [Ie|Ie]; auto.
      unfold cons_outs in Ie. apply in_map_iff in Ie as (q & <- & Ix). destruct (is_nil (history done q)) eqn:Z.
      - right. left. apply in_map. apply filter_In; auto.
      - left. apply Hold; auto. }
    assert (Hh : forall q, history (A :: done) q = word_at A q ++ history done q) by reflexivity.
    (* the record, given the final network *)
    assert (Final : forall n', represents Q (A :: done) (tn_dom n') (tprod n') (cons_D D A ni) (cons_O done O A no) ->
              keys (edges n') = keys (edges n1) -> (forall e, edim n' e = edim n1 e) ->
              incl (keys (nodes n')) (fst p :: names) -> complete (VNet n') ->
              wired Q (A :: done) (fst p :: names)
                (fun t' k' => lim t' k' \/ (k' = Z.of_nat k /\ (t' = t \/ t' = t + 1)%Z)) w1 n').
    { intros n' Rn Kn Dn Nn Cn. constructor.
      - exists (cons_D D A ni), (cons_O done O A no). split; auto. split.
        + intros q Q0. rewrite Hw1, Wb2, Wa2. unfold cons_D.
          destruct (mem q (act_ins A)) eqn:Mi.
          * apply mem_In, act_ins_iff in Mi. rewrite Hh. destruct (word_at A q) as [|[]]; try discriminate. auto.
          * apply mem_false in Mi. rewrite act_ins_iff in Mi. destruct (mem q (act_outs A)) eqn:Mo.
            -- apply mem_In, act_outs_iff in Mo. rewrite Hh. destruct (word_at A q) as [|[] ww]; [discriminate|exfalso; apply Mi; reflexivity|reflexivity].
            -- apply mem_false in Mo. rewrite act_outs_iff in Mo. rewrite (Hin q Q0), Hh.
               destruct (word_at A q) as [|c h] eqn:Wq; auto. simpl app. destruct c; [simpl in Mi; congruence|].
               (* word starts with O and does not end with O *)
               destruct (history done q) as [|c' h'] eqn:Hq; auto. simpl starts_in.
               assert (Y : starts_in (c' :: h') = ends_out (LO :: h)).
               { apply alternating_meet; try congruence. rewrite <- Wq, <- Hq. apply Alt; auto. }
               destruct c'; auto. simpl starts_in in Y. rewrite <- Y in Mo. congruence.
        + intros q Q0. rewrite Hw2, Wb3, Wa3. unfold cons_O. fold newq.
          destruct (mem q newq) eqn:Mn.
          * assert (Mn' := Mn). apply mem_In in Mn. unfold newq in Mn. apply filter_In in Mn as [X Z].
            rewrite (proj2 (mem_In _ _) X). unfold missing. rewrite (Hget q X), Z. simpl.
            rewrite Hh. destruct (history done q); [|discriminate]. rewrite app_nil_r. apply act_outs_iff in X. rewrite X. auto.
          * assert (E : mem q (act_outs A) && missing (w_in w) q = false).
            { destruct (mem q (act_outs A)) eqn:Mo; auto. simpl. apply mem_In in Mo. unfold missing. rewrite (Hget q Mo).
              destruct (is_nil (history done q)) eqn:Z; auto. exfalso. apply mem_false in Mn. apply Mn, filter_In; auto. }
            rewrite E, (Hout q Q0), Hh. destruct (history done q) as [|c h] eqn:Hq.
            -- simpl ends_out at 1. cbv iota. rewrite app_nil_r. destruct (ends_out (word_at A q)) eqn:Eo; auto.
               exfalso. apply mem_false in Mn. apply Mn, filter_In. split; [apply act_outs_iff; auto|]. rewrite Hq; auto.
            -- rewrite ends_out_app by congruence. auto.
      - split.
        + rewrite Hw1. auto.
        + intros q X. rewrite Hw1 in X. apply get_key in X. unfold missing in X. rewrite Wb2, Wa2 in X.
          destruct (mem q (act_ins A)) eqn:Mi; [apply IiQ, mem_In; auto|].
          destruct (mem q (act_outs A)) eqn:Mo; [discriminate|]. apply Ii, get_key. auto.
      - split.
        + rewrite Hw2, Wb3. auto.
        + intros q X. rewrite Hw2, Wb3 in X. apply get_key in X. unfold missing in X. rewrite Wa3 in X.
          destruct (mem q (act_outs A)) eqn:Mo; [apply IoQ, mem_In; auto|]. simpl in X. apply Io, get_key. auto.
      - intros e. rewrite Hw3, Kn, Keys1. split.
        + intros [X|X]; [apply in_app_iff; auto|]. rewrite <- Keys1. apply Les; auto.
        + rewrite !in_app_iff. intros [X|[X|X]]; auto; right; unfold es; rewrite in_app_iff, Wb1, Eouts; auto.
          left. apply in_map_iff in X as (q & <- & X). unfold cons_outs. apply in_map_iff.
          apply filter_In in X as [X1 X2]. exists q. rewrite X2. auto.
      - intros e I. rewrite Dn. apply Dim1. rewrite <- Kn; auto.
      - exact Nn.
      - exact Cn.
      - intros e I. rewrite Kn, Keys1, !in_app_iff in I. destruct I as [I|[I|I]].
        + destruct (Hedges e I) as (t' & k' & q' & E & L & H). exists t', k', q'. repeat split; auto.
          rewrite Hh. destruct (word_at A q'); simpl; congruence.
        + apply in_map_iff in I as (q & <- & X). unfold no, e_out. do 3 eexists. split; [reflexivity|]. split; auto.
          apply filter_In in X as [X _]. apply act_outs_iff in X. rewrite Hh. destruct (word_at A q); [discriminate|simpl; congruence].
        + apply in_map_iff in I as (q & <- & X). unfold ni, e_in. do 3 eexists. split; [reflexivity|]. split; auto.
          apply act_ins_iff in X. rewrite Hh. destruct (word_at A q); [discriminate|simpl; congruence]. }
    assert (NK : NoDup (keys (edges n1))) by (rewrite <- (keys_tn_dom n1); apply (rep_nodup R')).
    (* the gate itself *)
    unfold wire_gate. fold g. fold t. rewrite Msh.
    rewrite (@mbind_eq _ _ _ _ _ n n sh) by reflexivity.
    assert (Po : pick (g_qubits g) (positions role_out sh) = Ok (act_outs A)).
    { rewrite pick_positions by auto. unfold A. rewrite act_outs_role; auto. }
    assert (Pi : pick (g_qubits g) (positions role_in sh) = Ok (act_ins A)).
    { rewrite pick_positions by auto. unfold A. rewrite act_ins_role; auto. }
    rewrite Po, (@mbind_eq _ _ _ _ _ n n (act_outs A)) by reflexivity.
    rewrite Pi, (@mbind_eq _ _ _ _ _ n n (act_ins A)) by reflexivity.
    fold za. fold zb. fold es. rewrite (@mbind_eq _ _ _ _ _ n n1 w1) by exact Enew.
    assert (Tn1 : forall s, tprod n1 s = tprod n s) by reflexivity.
    assert (FixCase : forall e kk b, In e es -> (kk < 2)%nat ->
               (forall s : env, a (map s (fst za)) (map s (fst zb)) = kdelta (Nat.eqb (s e) kk)) ->
               exists w' n', (fix_edge e [kk] false ;; ret w1) n1 = (n', Ok w') /\ (b = b :> bool) /\ w' = w1 /\
                 represents Q (A :: done) (tn_dom n') (tprod n') (cons_D D A ni) (cons_O done O A no) /\
                 keys (edges n') = keys (edges n1) /\ (forall e, edim n' e = edim n1 e) /\ nodes n' = nodes n1).
    { intros e kk b Ie Lk Ea.
      destruct (@fix_edge_total _ e [kk] 2 n1) as [n2 E2]; [apply Dim1, Les; auto|intros v [<-|[]]; auto|].
      exists w1, n2. split; [unfold mbind; rewrite E2; reflexivity|]. split; auto. split; auto.
      pose proof (fix_edge_values _ _ _ E2) as (ed & ed' & G & En2 & Ed & Ev & _).
      assert (K2 : keys (edges n2) = keys (edges n1)).
      { rewrite En2. simpl. rewrite keys_set. rewrite (proj2 (has_In _ _) (get_Some_key _ _ G)). auto. }
      split; [|split; [exact K2|split]].
      - rewrite Wb1 in Ea. eapply represents_change; [exact R'|..].
        + rewrite keys_tn_dom, K2. auto.
        + intros x vs v Ix Iv. unfold tn_dom in Ix. apply in_map_iff in Ix as ([y ed0] & E0 & Iy). inversion E0; subst x vs. simpl in *.
          assert (Gy : get y (edges n2) = Some ed0) by (apply In_get; [rewrite K2; auto|auto]).
          assert (Old : forall ed1, get y (edges n1) = Some ed1 -> forall v, In v (edge_values ed1) -> (v < 2)%nat).
          { intros ed1 G1 v1 Iv1. apply (rep_bits R') with (a := y) (vs := edge_values ed1); auto.
            unfold tn_dom. apply in_map_iff. exists (y, ed1). split; auto. apply get_In; auto. }
          rewrite En2 in Gy. simpl in Gy. rewrite get_set in Gy. destruct (eqb_spec y e) as [E1|].
          * inversion Gy; subst. rewrite Ev in Iv. apply filter_In in Iv as [Iv _]. eapply Old; eauto.
          * eapply Old; eauto.
        + assert (Tn2 : forall s, tprod n2 s = tprod n s) by (rewrite En2; reflexivity).
          intros s s' Es. rewrite !Tn2. apply (rep_F R). intros x X. apply (Es x). rewrite keys_tn_dom, K2, Keys1.
          apply in_app_iff. rewrite keys_tn_dom in X. auto.
        + intros x X. rewrite keys_tn_dom in *. rewrite K2; auto.
        + intros f Df.
          transitivity (esum (tn_dom n1) (fun s => kdelta (mem (s e) [kk]) * (tprod n s * f s)) env0).
          { apply esum_ext_all. intros s. rewrite Ea. simpl mem. rewrite orb_false_r.
            change (eqb (s e) kk) with (Nat.eqb (s e) kk). ring. }
          rewrite <- (@esum_fix_edge S _ e [kk] n1 n2 tt (fun s => tprod n s * f s) NK E2).
          * apply esum_ext_all. intros s. rewrite En2. reflexivity.
          * intros s s' Es. f_equal; [|apply Df; auto]. apply (rep_F R). auto.
      - intros x. apply (@fix_edge_edim _ e [kk] n1 n2 tt); auto.
      - rewrite En2. reflexivity. }
    destruct (i_fix (g_op g)) as [[[] kk]|] eqn:Fx.
    - (* a state of the computational basis *)
      destruct M as (Esh & Lk & Ea).
      assert (Oq : exists q, act_outs A = [q] /\ act_ins A = []).
      { unfold A. rewrite act_outs_role, act_ins_role by auto. rewrite Esh in *. destruct (g_qubits g) as [|q [|]]; simpl in Lq; try discriminate.
        exists q. auto. }
      destruct Oq as (q & Oq & Iq').
      assert (Ez : exists e, fst za = [e]) by (rewrite Eouts; unfold cons_outs; rewrite Oq; simpl; eauto).
      destruct Ez as [e Ez]. rewrite Ez. simpl hd_res. rewrite (@mbind_eq _ _ _ _ _ n1 n1 e) by reflexivity.
      destruct (FixCase e kk true) as (w' & n' & E & _ & -> & H1 & H2 & H3 & H4); auto.
      + unfold es. rewrite Ez. simpl; auto.
      + intros s. rewrite Ez, Wb1, Iq'. simpl. apply Ea.
      + exists w1, n'. split; auto. apply Final; auto.
        * rewrite H4. unfold n1; simpl. intros x X. right. auto.
        * inversion Hcpl as [|? Hc| |]; subst. constructor. rewrite H4. exact Hc.
    - (* a measurement of the computational basis *)
      destruct M as (Esh & Lk & Ea).
      assert (Oq : exists q, act_outs A = [] /\ act_ins A = [q]).
      { unfold A. rewrite act_outs_role, act_ins_role by auto. rewrite Esh in *. destruct (g_qubits g) as [|q [|]]; simpl in Lq; try discriminate.
        exists q. auto. }
      destruct Oq as (q & Oq & Iq').
      assert (Ez : fst za = []) by (rewrite Eouts; unfold cons_outs; rewrite Oq; auto).
      assert (Ez' : fst zb = [ni q]) by (rewrite Wb1, Iq'; auto).
      rewrite Ez'. simpl hd_res. rewrite (@mbind_eq _ _ _ _ _ n1 n1 (ni q)) by reflexivity.
      destruct (FixCase (ni q) kk true) as (w' & n' & E & _ & -> & H1 & H2 & H3 & H4); auto.
      + unfold es. rewrite Ez'. rewrite in_app_iff; simpl; auto.
      + intros s. rewrite Ez, Ez'. simpl. apply Ea.
      + exists w1, n'. split; auto. apply Final; auto.
        * rewrite H4. unfold n1; simpl. intros x X. right. auto.
        * inversion Hcpl as [|? Hc| |]; subst. constructor. rewrite H4. exact Hc.
    - (* a node *)
      destruct M as (v & Ev & Cv & Esh & Val). rewrite Ev.
      rewrite (@mbind_eq _ _ _ _ _ n1 n1 v) by reflexivity.
      assert (Lza : length (fst za) = count role_out sh).
      { rewrite Eouts. unfold cons_outs. rewrite map_length. unfold A. apply act_outs_count; auto. }
      assert (Lzb : length (fst zb) = count role_in sh).
      { rewrite Wb1, map_length. unfold A. apply act_ins_count; auto. }
      assert (Sh1 : pshape v = Some (map (edim n1) es)).
      { simpl. rewrite Esh. unfold twos. f_equal. rewrite (map_ext_in (edim n1) (fun _ => Some 2%nat) es).
        - rewrite <- Lza, <- Lzb, <- app_length. fold es. generalize es. intros l. induction l; simpl; f_equal; auto.
        - intros e Ie. apply Dim1, Les; auto. }
      set (n2 := plus_node' n1 (fst p) es true v false).
      assert (E2 : add_node (fst p) (Some es) v false n1 = (n2, Ok (fst p))).
      { apply add_node_known; auto. }
      rewrite (@mbind_eq _ _ _ _ _ n1 n2 (fst p) E2).
      exists w1, n2. split; [reflexivity|]. apply Final; auto.
      + assert (Tn2 : forall s, tprod n2 s = tprod n s * tval_value v (map s es)).
        { intros s. unfold tprod, n2, tn_terms. simpl. rewrite map_app, prodf_app. simpl. unfold term_at. simpl. ring. }
        eapply represents_change; [exact R'|..].
        * rewrite keys_tn_dom. exact NK.
        * exact (rep_bits R').
        * intros s s' Es. rewrite !Tn2. f_equal.
          -- apply (rep_F R). intros x X. apply (Es x). change (tn_dom n2) with (tn_dom n1). rewrite keys_tn_dom in *. rewrite Keys1.
             apply in_app_iff; auto.
          -- f_equal. apply map_ext_in. intros x X. apply (Es x). change (tn_dom n2) with (tn_dom n1). rewrite keys_tn_dom. auto.
        * auto.
        * intros f Df. change (tn_dom n2) with (tn_dom n1). apply esum_ext; [rewrite keys_tn_dom; exact NK|].
          intros s [Rs _].
          assert (Bs : forall e, In e (keys (edges n1)) -> (s e < 2)%nat).
          { intros e Ie. destruct (key_get _ _ Ie) as [ed Ge]. apply get_In in Ge.
            assert (X : In (e, edge_values ed) (tn_dom n1)) by (unfold tn_dom; apply in_map_iff; exists (e, ed); auto).
            apply (rep_bits R') with (1 := X). apply Rs; auto. }
          rewrite Tn2. f_equal. f_equal. unfold es. rewrite map_app. change (map ni (act_ins A)) with (map (e_in t k) (act_ins A)). rewrite <- Wb1. symmetry. apply Val.
          -- split; [rewrite map_length; auto|]. apply Forall_forall. intros b Ib. apply in_map_iff in Ib as (e & <- & Ie).
             apply Bs, Les. unfold es. apply in_app_iff; auto.
          -- split; [rewrite map_length; auto|]. apply Forall_forall. intros b Ib. apply in_map_iff in Ib as (e & <- & Ie).
             apply Bs, Les. unfold es. apply in_app_iff; auto.
      + unfold n2; simpl. rewrite keys_app. intros x X. apply in_app_iff in X as [X|[<-|[]]]; simpl; auto.
      + apply complete_plus; auto. inversion Hcpl as [|? Hc| |]; subst. constructor. exact Hc.
  Qed.
End Step.
