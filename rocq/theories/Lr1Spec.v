(** * LR(1) grammars in the sense of Knuth, by rightmost derivations; used to state C74

    Nothing here mentions items, states or tables. *)
From Coq Require Import List Arith.
From Verif Require Import Lib Grammar.
Import ListNotations.

(** the strings that occur in rightmost derivations from [start]: always the last nonterminal is replaced *)
Inductive right_form (rules : list rule) (start : nat) : list sym -> Prop :=
| rf_start : right_form rules start [NT start]
| rf_step k r a z : right_form rules start (a ++ NT (r_lhs r) :: map TM z) -> nth_error rules k = Some r ->
    right_form rules start (a ++ r_rhs r ++ map TM z).

(** Knuth's condition: in a string that occurs in a rightmost derivation, the last step is determined by the string up to the
    end of the right-hand side that it introduced, and the terminal behind (if any) *)
Definition lr1 (rules : list rule) (start : nat) : Prop :=
  forall k r a z k' r' a' z' y,
    nth_error rules k = Some r -> right_form rules start (a ++ NT (r_lhs r) :: map TM z) ->
    nth_error rules k' = Some r' -> right_form rules start (a' ++ NT (r_lhs r') :: map TM z') ->
    a' ++ r_rhs r' ++ map TM z' = a ++ r_rhs r ++ map TM y -> hd_error y = hd_error z ->
    k' = k /\ a' = a /\ z' = y.
