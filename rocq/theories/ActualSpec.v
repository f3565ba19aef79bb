(** * The regular expression whose language a pattern really accepts (specification).

    The expression is computed from the pattern; what it denotes is the textbook language [Hir.matches].  The automaton of a
    sub-expression has a begin and an end, and the operators [?], [*], [+] add empty edges between the two without adding
    nodes.  Since the automaton may come back to its begin or go on from its end, this lets through more than the textbook operator.
    Hence four expressions for each sub-expression: for the words that lead from begin or end to begin or end. *)
From Verif Require Import Lib Hir NfaSem.

Definition h_none : hir := HAlt [].
Definition h_cat (a b : hir) : hir := HConcat [a; b].
Definition h_or (a b : hir) : hir := HAlt [a; b].
Definition h_star (a : hir) : hir := HRep RZeroOrMore true a.
Definition h_pow (n : nat) (a : hir) : hir := HRep (RExactly n) true a.
Definition h_any : hir := h_star (HClassU [(0%N, max_char)]).

Definition quad := side -> side -> hir.
Definition q_atom (a : hir) : quad := fun x y => match x, y with B, E => a | E, B => h_none | _, _ => HEmpty end.
(** an edge from [u] to [v] is used not at all, or once or more often *)
Definition q_add (Q : quad) (u v : side) : quad := fun x y => h_or (Q x y) (h_cat (Q x u) (h_cat (h_star (Q v u)) (Q v y))).
Definition q_cat (P Q : quad) : quad := fun x y =>
  match x, y with B, E => h_cat (P B E) (Q B E) | B, B => P B B | E, E => Q E E | E, B => h_none end.
Definition q_star (Q : quad) : quad := fun _ _ => q_add Q E B B B.
Definition q_exactly (n : nat) (Q : quad) : quad := fun x y =>
  match x, y with B, E => h_pow n (Q B E) | B, B => Q B B | E, E => Q E E | E, B => h_none end.
Definition q_at_least (n : nat) (Q : quad) : quad := fun x y =>
  match x, y with B, E => h_cat (h_pow n (Q B E)) (q_add Q E B B B) | B, B => Q B B | E, E => q_add Q E B B B | E, B => h_none end.
Definition q_bounded (n m : nat) (Q : quad) : quad := fun x y =>
  match x, y with
  | B, E => h_or (h_cat (HRep (RBounded n (m - 1)) true (Q B E)) (Q E E)) (h_pow m (Q B E))
  | B, B => Q B B | E, E => Q E E | E, B => h_none end.
Definition q_rep (k : rep) (Q : quad) : quad :=
  match k with
  | RZeroOrOne => q_add Q B E
  | RZeroOrMore => q_star Q
  | ROneOrMore => q_add Q E B
  | RExactly n => match n with 0 => fun _ _ => HEmpty | 1 => Q | _ => q_exactly n Q end
  | RAtLeast n => match n with 0 => q_star Q | _ => q_at_least n Q end
  | RBounded n m =>
      match n, m with
      | 0, 0 => fun _ _ => HEmpty
      | 0, 1 => q_add Q B E
      | 0, _ => q_add (q_bounded 1 m Q) B E
      | 1, 1 => Q
      | _, _ => if Nat.eqb n m then q_exactly n Q else q_bounded n m Q
      end
  end.
Fixpoint quad_of (h : hir) : quad :=
  match h with
  | HEmpty => fun _ _ => h_any
  | HLitU c => q_atom (HLitU c)
  | HClassU rs => q_atom (HClassU rs)
  | HLitB _ | HClassB _ | HAnchor | HWordB => fun _ _ => h_none
  | HRep k _ h => q_rep k (quad_of h)
  | HGroup h => quad_of h
  | HConcat hs => (fix go l := match l with [] => fun _ _ => h_none | [x] => quad_of x | x :: l' => q_cat (quad_of x) (go l') end) hs
  | HAlt hs => q_atom (HAlt (map (fun x => quad_of x B E) hs))
  end.
(** the expression that is accepted in place of [h] *)
Definition actual (h : hir) : hir := quad_of h B E.
