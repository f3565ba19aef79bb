(** * Specification for C81: a helper nonterminal is replaced by its right-hand sides *)
From Coq Require Import List Arith.
From Verif Require Import Lib Grammar LrModel ParseModel Trees ParseSpec.
Import ListNotations.

Section Inline.
  Context {N T E : Type}.

  (** [c'] is the rule [r] with the symbol at the place [k] of its right-hand side replaced by the right-hand side of
      [c].  Its reducer first calls that of [c] on the arguments of that part, and then that of [r] with the value. *)
  Definition inlines (r : crule N T E) (k : nat) (c c' : crule N T E) : Prop :=
    cr_rule c' = mk_rule (r_lhs (cr_rule r)) (firstn k (r_rhs (cr_rule r)) ++ r_rhs (cr_rule c) ++ skipn (S k) (r_rhs (cr_rule r))) /\
    forall before inner after, length before = k -> length inner = length (r_rhs (cr_rule c)) ->
      cr_gen c' (before ++ inner ++ after) =
      match cr_gen c inner with GOk v => cr_gen r (before ++ NonTerminal v :: after) | GErr x => GErr x | GPanic => GPanic end.

  (** [s'] is [s] with the rule [r] replaced: there is one new rule for each rule of the nonterminal at its place [k] *)
  Definition inlined (s s' : syntax N T E) : Prop :=
    exists l1 r l2 k A news,
      sx_rules s = l1 ++ r :: l2 /\ nth_error (r_rhs (cr_rule r)) k = Some (NT A) /\
      Forall2 (inlines r k) (filter (fun c => r_lhs (cr_rule c) =? A) (sx_rules s)) news /\
      sx_rules s' = l1 ++ news ++ l2 /\ sx_start s' = sx_start s.
End Inline.
