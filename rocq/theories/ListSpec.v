(** * Separated lists (specification)

    The items are the language of any grammar; between two items there is a token that the items do not contain. *)
From Coq Require Import List.
From Verif Require Import Lib Grammar LrModel ParseModel Trees ParseSpec.
Import ListNotations.

Section Sep.
  Context {N T E : Type} (tix : T -> nat).

  (** L ::= X  |  L sep X      added to the rules of X *)
  Definition sep_list (base : list (crule N T E)) (X L sep : nat) (g1 g2 : reducer N T E) : syntax N T E :=
    mk_syntax (base ++ [ rule_new_raw L [NonTerminal X] g1; rule_new_raw L [NonTerminal L; Terminal sep; NonTerminal X] g2 ]) L.

  (** the rules of the items mention neither the list nor the separator *)
  Definition item_rules (base : list (crule N T E)) (X L sep : nat) : Prop :=
    X <> L /\ forall r, In r base -> r_lhs (cr_rule r) <> L /\ ~ In (NT L) (r_rhs (cr_rule r)) /\ ~ In (TM (TSym sep)) (r_rhs (cr_rule r)).

  (** the value of a list, from those [item] of its items, from the left to the right *)
  Inductive listed (item : list T -> N -> Prop) (sep : nat) (g1 g2 : reducer N T E) : list T -> N -> Prop :=
  | listed_one u a v : item u a -> g1 [NonTerminal a] = GOk v -> listed item sep g1 g2 u v
  | listed_more w v' x u a v : listed item sep g1 g2 w v' -> tix x = sep -> item u a ->
      g2 [NonTerminal v'; Terminal x; NonTerminal a] = GOk v -> listed item sep g1 g2 (w ++ x :: u) v.
  (** the token sequences that are lists *)
  Inductive list_of (item : list T -> Prop) (sep : nat) : list T -> Prop :=
  | list_one u : item u -> list_of item sep u
  | list_more w x u : list_of item sep w -> tix x = sep -> item u -> list_of item sep (w ++ x :: u).
End Sep.
