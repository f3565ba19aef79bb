(** * How much [parse] keeps (specification)

    The loop of [parse] (parser/src/iter.rs 49-163) keeps a stack: the values made by the reducers and the tokens that no reducer
    has been given yet.  When the stack stays small, and when it grows with the input, can be read off the rules. *)
From Coq Require Import List Arith.
From Verif Require Import Lib Grammar LrModel ParseModel.
Import ListNotations.

(** the number of values, tokens and error symbols on the stack *)
Definition kept {N T} (st : pstate N T) : nat := length (ps_stack st).

Section Depth.
  Variable rs : list rule.

  (** [inside A l B]: rewriting [A], then the nonterminal of interest in the result, and so on, gives a string in which [B] comes
      directly behind [l] *)
  Inductive inside : nat -> list sym -> nat -> Prop :=
  | inside_rule r l B l' : In r rs -> r_rhs r = l ++ NT B :: l' -> inside (r_lhs r) l B
  | inside_trans A l1 B l2 C : inside A l1 B -> inside B l2 C -> inside A (l1 ++ l2) C.
  (** the nonterminals that can come up at all *)
  Definition comes_up (start A : nat) : Prop := A = start \/ exists l, inside start l A.
  (** some nonterminal comes up inside itself behind something: right recursion, brackets, ... but not left recursion *)
  Definition piles_up (start : nat) : Prop := exists A l, comes_up start A /\ inside A l A /\ l <> [].

  (** the longest right-hand side; the number of nonterminals that have rules *)
  Definition longest : nat := fold_right Nat.max 0 (map (fun r => length (r_rhs r)) rs).
  Definition defined_count : nat := length (nodup Nat.eq_dec (map r_lhs rs)).

  (** A certificate for the absence: numbers for the nonterminals that go down from the left-hand side to a nonterminal that is
      not in front, and never go up. *)
  Fixpoint ranks_ok (rank : nat -> nat) (a : nat) (first : bool) (l : list sym) : bool :=
    match l with
    | [] => true
    | TM _ :: l' => ranks_ok rank a false l'
    | NT B :: l' => (if first then rank B <=? a else rank B <? a) && ranks_ok rank a false l'
    end.
  Definition flat_check (rank : nat -> nat) : bool := forallb (fun r => ranks_ok rank (rank (r_lhs r)) true (r_rhs r)) rs.
End Depth.
