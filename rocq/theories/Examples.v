(** Concrete networks over the integers, used beside the property theorems to show that their
    hypotheses are met. *)
From Verif Require Import Base Scalar NetSpec ModelArray ModelTN TNInv TNOps TNSpec TNDelta ModelHist TNHist
  TNValue TNEdit ModelVal.
Set Implicit Arguments.

Section Run.
  Context {T : Type} `{PT : Payload T}.
  Fixpoint run (cs : list (call T)) : M (T := T) unit :=
    match cs with [] => ret tt | c :: r => do_call c ;; run r end.
  Lemma run_reach (ok : tn T -> call T -> Prop) cs : forall n, (forall n c, In c cs -> ok n c) ->
    snd (run cs n) = Ok tt -> reach ok n (fst (run cs n)).
  Proof.
    assert (Q : forall cs n0 n, reach ok n0 n -> (forall n c, In c cs -> ok n c) ->
              snd (run cs n) = Ok tt -> reach ok n0 (fst (run cs n))).
    { clear cs. induction cs as [|c cs IH]; intros n0 n R F E; simpl; auto.
      cbn [run] in *. unfold mbind in *. destruct (do_call c n) as [n1 [[]|q]] eqn:Ec; [|discriminate].
      apply IH; auto; [|intros; apply F; right; auto].
      eapply reach_snoc; eauto. apply F; left; auto. }
    intros n F E. apply Q; auto. constructor.
  Qed.
End Run.

Notation ZT := (tval ZK).
Definition zvec (l : list Z) : ZT := VTensor (Some (nd_vec (S := ZK) l)).
(** a matrix with [c] columns, given row by row *)
Definition zmat (r c : nat) (l : list Z) : ZT :=
  VTensor (Some (ND (S := ZK) [r; c] (fun idx => match idx with [i; j] => nth (i * c + j) l 0%Z | _ => 0%Z end))).
Definition zscal (z : Z) : ZT := VTensor (Some (nd_scalar (S := ZK) z)).

Notation i_ := (NS "i").
Notation j_ := (NS "j").
Notation k_ := (NS "k").
Notation a_ := (NS "a").
Notation b_ := (NS "b").
Notation c_ := (NS "c").

(** a matrix product with the output index i repeated *)
Definition ex_calls : list (call ZT) :=
  [CAddNode a_ (Some [i_; j_]) (zmat 2 3 [1;2;3;4;5;6]%Z) false;
   CAddNode b_ (Some [j_; k_]) (zmat 3 2 [1;0;2;1;0;3]%Z) false;
   COpenEdge i_ None; COpenEdge k_ None; COpenEdge i_ None].
Definition ex_net : tn ZT := fst (run ex_calls empty_tn).
Lemma ex_runs : snd (run ex_calls empty_tn) = Ok tt.
Proof. vm_compute. reflexivity. Qed.
Lemma ex_reach : reach (fun _ => @names_given ZT) empty_tn ex_net.
Proof.
  apply run_reach; [|apply ex_runs]. intros _ c Hc.
  repeat (destruct Hc as [<-|Hc]; [simpl; intuition discriminate|]). destruct Hc.
Qed.
Lemma ex_inv : inv ex_net.
Proof. eapply reach_inv; [apply ex_reach|apply empty_inv]. Qed.
Lemma ex_fix : fix_nodup ex_net.
Proof.
  apply (@reach_fix_nodup ZT _ (fun _ => @no_change_fix ZT)) with (n := empty_tn); auto.
  - apply run_reach; [|apply ex_runs]. intros _ c Hc.
    repeat (destruct Hc as [<-|Hc]; [exact I|]). destruct Hc.
  - intros e ed fx Q; discriminate Q.
Qed.
(** its value at i = 1, k = 0, i = 1 is 4*1 + 5*2 + 6*0 *)
Example ex_value : tn_value (@tval_value ZK) ex_net [1; 0; 1] = 14%Z.
Proof. vm_compute. reflexivity. Qed.
Example ex_value_off : tn_value (@tval_value ZK) ex_net [1; 0; 0] = 0%Z.
Proof. vm_compute. reflexivity. Qed.
