(** * Grammars in which a syntax error does not undo earlier recoveries; used to state C73 *)
From Coq Require Import List Arith.
From Verif Require Import Lib Grammar LrModel LrSpec ParseModel ParseSpec.
Import ListNotations.

(** [opens rules A l]: a non-empty beginning of an [A] can be read as the symbols [l] *)
Inductive opens (rules : list rule) : nat -> list sym -> Prop :=
| opens_here r j : In r rules -> 0 < j <= length (r_rhs r) -> opens rules (r_lhs r) (firstn j (r_rhs r))
| opens_in r j B l : In r rules -> nth_error (r_rhs r) j = Some (NT B) -> opens rules B l -> opens rules (r_lhs r) (firstn j (r_rhs r) ++ l).

(** whenever recovery is possible outside of an [A] (behind [g]) and inside of it (behind [l]), it is possible behind the [A]
    too, unless nothing can follow there but the end of the rule around it *)
Definition steady (rules : list rule) (rs : list rule) (sr : nat) : Prop :=
  forall g u A l X, wants rs sr g (TM TErr) -> opens rules A l -> wants rs sr (g ++ u ++ l) (TM TErr) ->
    wants rs sr (g ++ u ++ [NT A]) X -> wants rs sr (g ++ u ++ [NT A]) (TM TErr).

(** the error symbol occurs in one rule only *)
Definition one_error_rule (rules : list rule) : Prop :=
  exists k0, forall k r, nth_error rules k = Some r -> In (TM TErr) (r_rhs r) -> k = k0.
