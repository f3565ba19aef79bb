(** * Grammars that can make a parser run in circles (specification)

    Two defects of a nonterminal that a user can look for in the rules: it can be rewritten to itself and nothing else
    ([cyclic], Grammar.v), or it can be rewritten to a string in which it comes again behind symbols that may all be
    empty. *)
From Coq Require Import List Arith.
From Verif Require Import Lib Grammar.
Import ListNotations.

Section Loops.
  Variable rs : list rule.

  (** [A] occurs in a string that the nonterminal [start] can be rewritten to *)
  Definition reachable (start A : nat) : Prop := exists l1 l2, rewr rs [NT start] (l1 ++ NT A :: l2).

  (** hidden left recursion: [A] can be rewritten to [l1 A l2] where [l1] is not empty but derives the empty string *)
  Definition hidden_left_recursive (A : nat) : Prop :=
    exists r l1 l2, In r rs /\ r_lhs r = A /\ rewr rs (r_rhs r) (l1 ++ NT A :: l2) /\ l1 <> [] /\ ders rs l1 [].

  (** none of the nonterminals that matter has one of the two defects *)
  Definition loop_free (start : nat) : Prop :=
    forall A, reachable start A -> ~ cyclic rs A /\ ~ hidden_left_recursive A.

  (** A certificate: numbers for the nonterminals, and a list of those that may be empty. *)
  Definition empty_sym (nl : list nat) (X : sym) : bool := match X with NT A => existsb (Nat.eqb A) nl | TM _ => false end.
  (** the list holds all the nonterminals that derive the empty string *)
  Definition nl_check (nl : list nat) : bool :=
    forallb (fun r => implb (forallb (empty_sym nl) (r_rhs r)) (existsb (Nat.eqb (r_lhs r)) nl)) rs.
  (** for all places of nonterminals [B] in a right-hand side, with [l1] before and [l2] behind *)
  Fixpoint places (f : list sym -> nat -> list sym -> bool) (l1 l : list sym) : bool :=
    match l with
    | [] => true
    | X :: l' => match X with NT B => f l1 B l' | TM _ => true end && places f (l1 ++ [X]) l'
    end.
  (** against cycles: the number goes down from the left-hand side to [B] when all the rest may be empty *)
  Definition cycle_check (nl : list nat) (rank : nat -> nat) : bool :=
    forallb (fun r => places (fun l1 B l2 =>
      implb (forallb (empty_sym nl) l1 && forallb (empty_sym nl) l2) (rank B <? rank (r_lhs r))) [] (r_rhs r)) rs.
  (** against hidden left recursion: the number does not go up from the left-hand side to [B] when what is before [B] may
      be empty, and goes down if there is something before [B] *)
  Definition left_check (nl : list nat) (rank : nat -> nat) : bool :=
    forallb (fun r => places (fun l1 B l2 =>
      implb (forallb (empty_sym nl) l1) (if l1 then rank B <=? rank (r_lhs r) else rank B <? rank (r_lhs r))) [] (r_rhs r)) rs.
  Definition loop_check (nl : list nat) (rank1 rank2 : nat -> nat) : bool := nl_check nl && cycle_check nl rank1 && left_check nl rank2.
End Loops.
