(** * What a list of patterns makes of a text (specification).

    The first pattern whose expression (ActualSpec) contains the whole text makes the token.  Nothing here refers to automata, to the scan or to
    the numbers of the patterns. *)
From Verif Require Import Lib Hir ActualSpec.

(** a pattern is an expression and a maker; [makes l f items e]: the items are one text of the tokens, and the first pattern that matches it makes [e] *)
Inductive makes {E T} (f : T -> N) (items : list T) : list (hir * (list N -> list T -> E)) -> E -> Prop :=
| makes_here h m l : matches (actual h) (map f items) -> makes f items ((h, m) :: l) (m (map f items) items)
| makes_later h m l e : ~ matches (actual h) (map f items) -> makes f items l e -> makes f items ((h, m) :: l) e.

(** two lists of patterns make the same of every text *)
Definition same_makes {E T} (l l' : list (hir * (list N -> list T -> E))) : Prop :=
  forall f items e, makes f items l e <-> makes f items l' e.
