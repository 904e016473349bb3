(** * Specification for copies: what programs with several objects do when nothing is shared *)
From Verif Require Import Base ModelTN ModelHist ModelCopy.
Set Implicit Arguments.

Section CopySpec.
  Context {T : Type} `{Payload T}.
  Notation net := (tn T).
  (** the same program on values: a copy is an independent network *)
  Definition act_val (l : list (option net)) (a : action (T := T)) : list (option net) :=
    match a with
    | ACopy i => l ++ [match nth_error l i with Some (Some n) => Some (with_idc n 0) | _ => None end]
    | ADeep i => l ++ [match nth_error l i with
                       | Some (Some n) => match deep_val n with (n', Ok _) => Some n' | _ => None end
                       | _ => None
                       end]
    | AEdit i c => match nth_error l i with
                   | Some (Some n) => set_nth i (Some (fst (do_call c n))) l
                   | _ => l
                   end
    end.
  (** the calls that assign to an item of a list: rewire, and fix_edge with change_fix=True *)
  Definition assigns (c : call T) : bool :=
    match c with CRewire _ _ _ => true | CFixEdge _ _ true => true | _ => false end.
  (** [shared] tells for every object whether copy() has made it share lists with another one; only
      objects that do not share may be changed by a call that assigns *)
  Fixpoint allowed (shared : list bool) (p : list (action (T := T))) : bool :=
    match p with
    | [] => true
    | ACopy i :: r => allowed (set_nth i true shared ++ [true]) r
    | ADeep i :: r => allowed (shared ++ [false]) r
    | AEdit i c :: r => (negb (assigns c) || negb (nth i shared true)) && allowed shared r
    end.
End CopySpec.
