(** * Operators without levels of precedence (specification)

    Expressions written in one nonterminal [E], as [E ::= n | E + E | E * E | - E | E ! | ( E ) | E [ E ] | E ? E : E | let E in E].
    [LR1Parser::new] (parser/src/parser.rs 321) reports conflicts for them. *)
From Coq Require Import List Arith.
From Verif Require Import Lib Grammar LrModel ParseModel ParseSpec.
Import ListNotations.

(** a construct: does it begin with an operand; its first token; its further tokens, each behind an operand; does it end with an operand *)
Record construct := mk_construct { left_operand : bool; first_token : nat; more_tokens : list nat; right_operand : bool }.
Definition atom (a : nat) : construct := mk_construct false a [] false.
Definition infix (o : nat) : construct := mk_construct true o [] true.
Definition prefix (o : nat) : construct := mk_construct false o [] true.
Definition postfix (o : nat) : construct := mk_construct true o [] false.
Definition brackets (o c : nat) : construct := mk_construct false o [c] false.
Definition indexing (o c : nat) : construct := mk_construct true o [c] false.
Definition ternary (o c : nat) : construct := mk_construct true o [c] true.

Section Flat.
  Context {N T E : Type} (tix : T -> nat).
  Notation constructs := (list (construct * reducer N T E)).

  (** the right-hand side of the rule [E ::= ...] of a construct; [E] is the nonterminal 0 *)
  Definition body (c : construct) : list (symbol nat nat unit) :=
    (if left_operand c then [NonTerminal 0] else []) ++ Terminal (first_token c) ::
    flat_map (fun m => [NonTerminal 0; Terminal m]) (more_tokens c) ++ (if right_operand c then [NonTerminal 0] else []).
  Definition flat_syntax (cs : constructs) : syntax N T E := mk_syntax (map (fun p => rule_new_raw 0 (body (fst p)) (snd p)) cs) 0.

  (** the first tokens of the constructs that begin with an operand, and of those that do not *)
  Definition firsts_of (left : bool) (cs : constructs) : list nat :=
    map (fun p => first_token (fst p)) (filter (fun p => Bool.eqb (left_operand (fst p)) left) cs).
  (** the first token tells the construct, where an operand is expected and behind an operand; further tokens are no operators *)
  Definition distinct (cs : constructs) : Prop :=
    NoDup (firsts_of false cs) /\ NoDup (firsts_of true cs) /\
    forall p m, In p cs -> In m (more_tokens (fst p)) -> ~ In m (firsts_of true cs).

  Variable cs : constructs.

  (** The reading of a text: what stands to the left of an operator is as short as possible, what stands to the right of it as long as
      possible, whatever the operators are.  [operand u v]: [u] is a left operand with the value [v]; [whole u v]: [u] is an
      expression with the value [v]. *)
  Inductive whole : list T -> N -> Prop :=
  | whole_operand u v : operand u v -> whole u v
  | whole_prefix c g x u args u' b v : In (c, g) cs -> left_operand c = false -> right_operand c = true -> tix x = first_token c ->
      middle (more_tokens c) u args -> whole u' b -> g (Terminal x :: args ++ [NonTerminal b]) = GOk v -> whole (x :: u ++ u') v
  | whole_infix c g u0 a x u args u' b v : In (c, g) cs -> left_operand c = true -> right_operand c = true -> operand u0 a -> tix x = first_token c ->
      middle (more_tokens c) u args -> whole u' b -> g (NonTerminal a :: Terminal x :: args ++ [NonTerminal b]) = GOk v -> whole (u0 ++ x :: u ++ u') v
  with operand : list T -> N -> Prop :=
  | operand_closed c g x u args v : In (c, g) cs -> left_operand c = false -> right_operand c = false -> tix x = first_token c ->
      middle (more_tokens c) u args -> g (Terminal x :: args) = GOk v -> operand (x :: u) v
  | operand_postfix c g u0 a x u args v : In (c, g) cs -> left_operand c = true -> right_operand c = false -> operand u0 a -> tix x = first_token c ->
      middle (more_tokens c) u args -> g (NonTerminal a :: Terminal x :: args) = GOk v -> operand (u0 ++ x :: u) v
  (** operands, each with a token behind it *)
  with middle : list nat -> list T -> list (arg N T) -> Prop :=
  | middle_end : middle [] [] []
  | middle_next ms u v x u' args : whole u v -> middle ms u' args -> middle (tix x :: ms) (u ++ x :: u') (NonTerminal v :: Terminal x :: args).
End Flat.
Scheme whole_mut := Minimality for whole Sort Prop
with operand_mut := Minimality for operand Sort Prop
with middle_mut := Minimality for middle Sort Prop.
Combined Scheme whole_operand_middle_ind from whole_mut, operand_mut, middle_mut.
