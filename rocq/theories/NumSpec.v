(** * Numberings of the variants of an enumeration (specification)

    The parser sees a token or a nonterminal only through its number, [enum_index] of its variant
    (parser/src/syntax.rs 124-198, parser/src/iter.rs 48-50).  The derive macro numbers the variants
    in the order in which the enumeration lists them. *)
From Coq Require Import List.
From Verif Require Import Lib Grammar LrModel ParseModel.
Import ListNotations.

(** two numberings that put the same values into the same class *)
Definition same_classes {A} (ix ix' : A -> nat) : Prop := forall a b, ix a = ix b <-> ix' a = ix' b.

(** the syntax whose rules are written with examples of the variants, [Rule::new] *)
Definition coded {N T E} (nix : N -> nat) (tix : T -> nat) (start : N) (rules : list (N * list (symbol N T unit) * reducer N T E)) : syntax N T E :=
  mk_syntax (map (fun r => rule_new nix tix (fst (fst r)) (snd (fst r)) (snd r)) rules) (nix start).

(** the kind of a warning and the rules it names *)
Inductive warning_shape := ShiftReduceOf (k : nat) | ReduceReduceOf (k0 k : nat).
Definition shape (w : warning) : warning_shape :=
  match w with WShiftReduce _ _ k => ShiftReduceOf k | WReduceReduce _ k0 k => ReduceReduceOf k0 k end.
