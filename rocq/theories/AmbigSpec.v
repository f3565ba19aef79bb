(** * Ambiguous grammars whose tokens tell the constructs apart (specification)

    Grammars as [E ::= E + E | E * E | - E | ( E ) | E ( E ) | E ? E : E | if E then E | if E then E else E | n], written without levels of
    precedence.  [LR1Parser::new] (parser/src/parser.rs 321) reports conflicts for them. *)
From Coq Require Import List Arith.
From Verif Require Import Lib Grammar.
Import ListNotations.

Section Apart.
  Variable rs : list rule.
  (** some rule for [A] begins with the symbols [l]; is [A ::= l] *)
  Definition begins (A : nat) (l : list sym) : Prop := exists r l', In r rs /\ r_lhs r = A /\ r_rhs r = l ++ l'.
  Definition is_rule (A : nat) (l : list sym) : Prop := In (mk_rule A l) rs.
  (** the last of the symbols is a nonterminal *)
  Definition after_operand (l : list sym) : Prop := exists l' A, l = l' ++ [NT A].
  (** [t] occurs in a rule for [A] behind the symbols [l] *)
  Definition occurs_behind (A : nat) (l : list sym) (t : term) : Prop := begins A (l ++ [TM t]).

  Record told_apart : Prop := {
    (** no right-hand side is empty or a single nonterminal or has two neighbouring nonterminals *)
    ta_some : forall r, In r rs -> r_rhs r <> [];
    ta_single : forall r A, In r rs -> r_rhs r <> [NT A];
    ta_next : forall r l A B l', In r rs -> r_rhs r <> l ++ NT A :: NT B :: l';
    (** a rule that begins with a nonterminal begins with its own *)
    ta_left : forall r A l, In r rs -> r_rhs r = NT A :: l -> A = r_lhs r;
    (** where an operand can begin or a token follows a token, the token tells the rule and the place *)
    ta_operand : forall A l A' l' t, occurs_behind A l t -> occurs_behind A' l' t -> ~ after_operand l -> ~ after_operand l' -> A = A' /\ l = l';
    (** behind an operand the same, for operators and for tokens before which the construct could have ended; other tokens, as
        closing brackets and commas, may be shared *)
    ta_operator : forall A l B A' l' B' t, occurs_behind A (l ++ [NT B]) t -> occurs_behind A' (l' ++ [NT B']) t ->
      l = [] \/ is_rule A (l ++ [NT B]) -> A = A' /\ l = l' /\ B = B';
    (** where a construct can end with a token but can also go on, it goes on with tokens that do not occur behind operands *)
    ta_optional : forall A l t, is_rule A l -> ~ after_operand l -> (exists A' l', occurs_behind A' l' t /\ after_operand l') ->
      ~ occurs_behind A l t /\ forall B, begins A (l ++ [NT B]) -> ~ occurs_behind B [] t }.
End Apart.
