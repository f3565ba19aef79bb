(** * Growing a grammar (specification)

    A grammar gets one more rule [A -> key body] that begins with a token of its own, as when a language gets a new construct
    with a new keyword.  Grammars as users write them, given to LR1Parser::new (parser/src/parser.rs 321). *)
From Coq Require Import List Arith Permutation.
From Verif Require Import Lib Grammar LrModel ParseModel Trees ParseSpec LoopSpec NestSpec.
Import ListNotations.

(** [A] derives a string that begins with the terminal [t] *)
Definition can_begin_with (rs : list rule) (A : nat) (t : term) : Prop := exists w, der rs (NT A) (t :: w).

(** A body in which each nonterminal [D], one that the grammar uses and that cannot be rewritten to itself, is directly followed by
    a token that does not occur in the grammar; the other tokens are any but [key]. *)
Inductive delimited (rs : list rule) (start key : nat) : list sym -> Prop :=
| dl_nil : delimited rs start key []
| dl_token t l : t <> TSym key -> delimited rs start key l -> delimited rs start key (TM t :: l)
| dl_part D e l : reachable rs start D -> ~ cyclic rs D -> e <> key -> ~ has_terminal rs (TSym e) -> delimited rs start key l ->
    delimited rs start key (NT D :: TM (TSym e) :: l).

(** the new rule *)
Definition key_rule (A key : nat) (body : list sym) : rule := mk_rule A (TM (TSym key) :: body).
(** [s'] has the rules of [s] and one new rule [A -> key body], in any order *)
Definition grown {N T E} (s : syntax N T E) (A key : nat) (body : list sym) (s' : syntax N T E) : Prop :=
  sx_start s' = sx_start s /\ exists c, cr_rule c = key_rule A key body /\ Permutation (sx_rules s') (c :: sx_rules s).

(** [s'] has the rules of [s] and several new constructs, the last of [keys] first, each of which may also use the earlier ones *)
Inductive grown_by {N T E} (s : syntax N T E) : list nat -> syntax N T E -> Prop :=
| gb_nil : grown_by s [] s
| gb_more keys s1 A t key body s' : grown_by s keys s1 -> can_begin_with (gram s1) A t -> ~ has_terminal (gram s1) (TSym key) ->
    delimited (gram s1) (sx_start s1) key body -> grown s1 A key body s' -> grown_by s (key :: keys) s'.
