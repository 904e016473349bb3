(** The constant tensors used by the code, and induction over tensor-valued objects. *)
From Verif Require Import Base Scalar NetSpec Sums NetAlg ModelArray ModelTN TNSpec TNDeltaValue ModelVal.
Set Implicit Arguments.

Section Laws.
  Variable S : scalar.
  Lemma tval_laws : @payload_laws S (tval S) (tval_payload S) (@tval_value S).
  Proof.
    constructor; simpl; auto.
    - intros bs. rewrite !map_length; auto.
    - intros bs. induction bs as [|b r IH]; intros [|i] Hi; simpl in *; try lia; auto.
      apply IH; lia.
  Qed.
End Laws.
