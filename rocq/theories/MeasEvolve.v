(** * Channels on one wire, and on none *)
From Coq Require Import Sorting.Permutation Sorting.Sorted.
From Verif Require Import Base Scalar NetSpec Sums NetAlg ModelArray ModelTN TNSpec ModelVal ModelOps OpsSpec ModelContract NameOrder CircSpec CircSum CircOrder ModelCircuit CircSem CircShape
  CircCtrl CircMain CircBuild CircUse DensSpec CircDens CircDensNet CircDensOp CircPure ChanCirc CircFlat MatSpec.
Set Implicit Arguments.

Section Evolve.
  Variable S : scalar.
  Local Open Scope K_scope.
  Add Ring K_ring_me : (kring S).
  Notation env := (env (A := name)).

  (** the wire [q] with other bits in the two copies *)
  Definition upd2 (a : env) (q : name) (u v : nat) : env := upd (upd a (ket q) u) (bra q) v.
  Lemma upd2_k a q u v : upd2 a q u v (ket q) = u.
  Proof. unfold upd2, upd. destruct (eqb_spec (ket q) (bra q)) as [E|_]; [discriminate E|]. rewrite eqb_refl. auto. Qed.
  Lemma upd2_b a q u v : upd2 a q u v (bra q) = v.
  Proof. unfold upd2, upd. rewrite eqb_refl. auto. Qed.
  Lemma upd2_n a q u v x : x <> ket q -> x <> bra q -> upd2 a q u v x = a x.
  Proof. intros A B. unfold upd2, upd. destruct (eqb_spec x (bra q)); [congruence|]. destruct (eqb_spec x (ket q)); [congruence|]. auto. Qed.

  Lemma word_self q (w : word) ch : word_at (skel (CAct (S := S) [q] [w] ch)) q = w.
  Proof. unfold word_at. cbn. rewrite eqb_refl; auto. Qed.

  Lemma self_outs q w ch : act_outs (skel (CAct (S := S) [q] [w] ch)) = if ends_out w then [q] else [].
  Proof. unfold act_outs, word_at. cbn. rewrite eqb_refl. auto. Qed.
  Lemma self_ins q w ch : act_ins (skel (CAct (S := S) [q] [w] ch)) = if starts_in w then [q] else [].
  Proof. unfold act_ins, word_at. cbn. rewrite eqb_refl. auto. Qed.

  Section On.
    Context (Q : list name) (NQ : NoDup Q).
    Context (psi : env -> S) (D : depends_on (both Q) psi) (a : env) (Ba : forall x, In x (both Q) -> (a x < 2)%nat).

    Lemma evolve_wire q w ch : In q Q -> evolve (both Q) (dbl (CAct [q] [w] ch)) psi a =
      sumf (fun u => sumf (fun v => matrix (both [q]) (dbl (CAct [q] [w] ch)) a (upd2 a q u v) * psi (upd2 a q u v)) [0; 1]%nat) [0; 1]%nat.
    Proof.
      intros Iq. assert (N1 : NoDup [q]) by (repeat constructor; intros []).
      assert (I2 : incl (both [q]) (both Q)) by (apply both_incl; intros x [<-|[]]; auto).
      rewrite (@evolve_on S (both Q) (both [q]) (dbl (CAct [q] [w] ch))); auto using both_NoDup, incl_refl.
    Qed.

    Lemma evolve_in q ch : In q Q -> evolve (both Q) (dbl (CAct [q] [[LI]] ch)) psi a =
      kdelta (Nat.eqb (a (ket q)) 0 && Nat.eqb (a (bra q)) 0) *
      sumf (fun u => sumf (fun v => ch [] [u] [] [v] * psi (upd2 a q u v)) [0; 1]%nat) [0; 1]%nat.
    Proof.
      intros Iq. rewrite evolve_wire by auto.
      assert (Fq : fits (CAct (S := S) [q] [[LI]] ch)) by reflexivity. assert (Wq : word_at (skel (CAct (S := S) [q] [[LI]] ch)) q = [LI]) by apply word_self.
      assert (Eo : act_outs (skel (CAct [q] [[LI]] ch)) = []) by (apply self_outs).
      assert (Ei : act_ins (skel (CAct [q] [[LI]] ch)) = [q]) by (apply self_ins).
      assert (M : forall u v, matrix (both [q]) (dbl (CAct [q] [[LI]] ch)) a (upd2 a q u v) =
        kdelta (Nat.eqb (a (ket q)) 0 && Nat.eqb (a (bra q)) 0) * ch [] [u] [] [v]).
      { intros u v. unfold matrix. rewrite dbl_outs, dbl_ins by auto. rewrite Eo, Ei. cbn [both map app forallb]. rewrite word_ket, word_bra, Wq by auto.
        cbn [wire_ok starts_in ends_out last orb andb]. rewrite upd2_k, upd2_b. unfold dbl. cbn [amp]. rewrite Eo, Ei. cbn [length firstn skipn c_chan].
        rewrite andb_true_r. reflexivity. }
      cbn [sumf]. rewrite !M. ring.
    Qed.

    Lemma evolve_out q ch : In q Q -> evolve (both Q) (dbl (CAct [q] [[LO]] ch)) psi a = ch [a (ket q)] [] [a (bra q)] [] * psi (upd2 a q 0 0).
    Proof.
      intros Iq. rewrite evolve_wire by auto.
      assert (Fq : fits (CAct (S := S) [q] [[LO]] ch)) by reflexivity. assert (Wq : word_at (skel (CAct (S := S) [q] [[LO]] ch)) q = [LO]) by apply word_self.
      assert (Eo : act_outs (skel (CAct [q] [[LO]] ch)) = [q]) by (apply self_outs).
      assert (Ei : act_ins (skel (CAct [q] [[LO]] ch)) = []) by (apply self_ins).
      assert (M : forall u v, matrix (both [q]) (dbl (CAct [q] [[LO]] ch)) a (upd2 a q u v) =
        kdelta (Nat.eqb u 0 && Nat.eqb v 0) * ch [a (ket q)] [] [a (bra q)] []).
      { intros u v. unfold matrix. rewrite dbl_outs, dbl_ins by auto. rewrite Eo, Ei. cbn [both map app forallb]. rewrite word_ket, word_bra, Wq by auto.
        cbn [wire_ok starts_in ends_out last orb andb]. rewrite upd2_k, upd2_b. unfold dbl. cbn [amp]. rewrite Eo, Ei. cbn [length firstn skipn c_chan].
        rewrite !andb_true_r. reflexivity. }
      cbn [sumf]. rewrite !M. cbn [Nat.eqb andb kdelta]. ring.
    Qed.

    Lemma evolve_none ch : evolve (both Q) (dbl (CAct [] [] ch)) psi a = ch [] [] [] [] * psi a.
    Proof.
      rewrite (@evolve_on S (both Q) [] (dbl (CAct [] [] ch))); auto using both_NoDup, incl_refl, NoDup_nil, incl_nil_l.
      cbn [qdom map esum]. unfold matrix. cbn. ring.
    Qed.
  End On.
End Evolve.
