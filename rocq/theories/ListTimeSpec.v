(** * Grammars in which all recovery happens between the items of one list; used to state C106 *)
From Coq Require Import List.
From Verif Require Import Lib Grammar.
Import ListNotations.

(** the error symbol occurs only at the beginning of an [R], an [R] only behind a separator and at the very end of an [R],
    and a separator only directly within an [R] *)
Definition recovers_in_list (rules : list rule) (R sep : nat) : Prop :=
  forall r a Y b, In r rules -> r_rhs r = a ++ Y :: b ->
    (Y = TM TErr -> r_lhs r = R /\ a = []) /\
    (Y = NT R -> r_lhs r = R /\ b = [] /\ exists a', a = a' ++ [TM (TSym sep)]) /\
    (Y = TM (TSym sep) -> r_lhs r = R).
