(** * Values of grammars inside grammars (specification)

    The outer grammar is written for a sequence in which each item already stands as its value: its tokens are the tokens
    themselves and the values of items, which all have kind [x].  Grammars as users write them, given to LR1Parser::new
    (parser/src/parser.rs 321). *)
From Coq Require Import List Arith Permutation.
From Verif Require Import Lib Grammar LrModel ParseModel Trees ParseSpec NestSpec.
Import ListNotations.

Section Values.
  Context {N T E : Type} (tix : T -> nat) (x : nat).

  (** the kind of a token of the outer grammar (EnumIndex of the token type, parser/src/parser.rs 326) *)
  Definition outer_ix (y : T + N) : nat := match y with inl t => tix t | inr _ => x end.

  (** what the outer reducer gets where the nested one gets [a] and the outer rule has the symbol [Y]: the value of an item
      counts as a token there (Symbol, parser/src/lib.rs 14-19) *)
  Definition outer_arg (Y : sym) (a : symbol N T (list T)) : symbol N (T + N) (list (T + N)) :=
    match a, Y with
    | NonTerminal v, NT _ => NonTerminal v
    | NonTerminal v, TM _ => Terminal (inr v)
    | Terminal t, _ => Terminal (inl t)
    | ErrorSym l, _ => ErrorSym (map inl l)
    end.
  Fixpoint outer_args (l : list sym) (args : list (symbol N T (list T))) : list (symbol N (T + N) (list (T + N))) :=
    match l, args with Y :: l', a :: args' => outer_arg Y a :: outer_args l' args' | _, _ => [] end.

  (** the rule of the nested grammar that belongs to a rule of the outer one: [X] for [x], and a reducer that does the same with what a
      reducer of that rule can get *)
  Definition inside (X : nat) (r1 : crule N (T + N) E) (r : crule N T E) : Prop :=
    cr_rule r = put_rule x X (cr_rule r1) /\
    forall args, Forall2 (fits tix) (r_rhs (cr_rule r)) args -> cr_gen r args = cr_gen r1 (outer_args (r_rhs (cr_rule r1)) args).

  (** [s] has the rules of the outer grammar [s1], with the start symbol of [s2] for [x], and those of [s2], in any order *)
  Definition nested_values (s1 : syntax N (T + N) E) (s2 s : syntax N T E) : Prop :=
    sx_start s = sx_start s1 /\ exists rs, Forall2 (inside (sx_start s2)) (sx_rules s1) rs /\ Permutation (sx_rules s) (sx_rules s2 ++ rs).

  (** [w] is [w1] with a text of the item for each value: [I u a] says that [u] is a text of an item with the value [a] *)
  Inductive spelled (I : list T -> N -> Prop) : list (T + N) -> list T -> Prop :=
  | spelled_nil : spelled I [] []
  | spelled_item u a w1 w : I u a -> spelled I w1 w -> spelled I (inr a :: w1) (u ++ w)
  | spelled_token t w1 w : tix t <> x -> spelled I w1 w -> spelled I (inl t :: w1) (t :: w).
End Values.
