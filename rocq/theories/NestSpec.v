(** * Grammars inside grammars (specification)

    A grammar [s1] uses a token [x] for something that has a grammar [s2] of its own; the nested grammar has the start symbol of
    [s2] in the place of [x].  Grammars as users write them, given to LR1Parser::new (parser/src/parser.rs 321). *)
From Coq Require Import List Arith Permutation.
From Verif Require Import Lib Grammar LrModel ParseModel Trees ParseSpec.
Import ListNotations.

(** [x] replaced by [X] *)
Definition put_sym (x X : nat) (Y : sym) : sym := match Y with TM (TSym t) => if Nat.eqb t x then NT X else Y | _ => Y end.
Definition put_rule (x X : nat) (r : rule) : rule := mk_rule (r_lhs r) (map (put_sym x X) (r_rhs r)).

(** no terminal and no nonterminal occurs in both; the error symbol counts as a terminal *)
Definition has_terminal (rs : list rule) (t : term) : Prop := exists r, In r rs /\ In (TM t) (r_rhs r).
Definition has_nonterminal (rs : list rule) (A : nat) : Prop := exists r, In r rs /\ (r_lhs r = A \/ In (NT A) (r_rhs r)).
Definition disjoint_grammars (rs1 rs2 : list rule) : Prop :=
  (forall t, has_terminal rs1 t -> ~ has_terminal rs2 t) /\ (forall A, has_nonterminal rs1 A -> ~ has_nonterminal rs2 A).

(** two [x] are never next to each other *)
Definition never_twice (rs1 : list rule) (start1 x : nat) : Prop := forall u v, ~ der rs1 (NT start1) (u ++ TSym x :: TSym x :: v).

(** the strings of [rs1] with a string of [X] for each [x] *)
Inductive filled (rs2 : list rule) (x X : nat) : list term -> list term -> Prop :=
| filled_nil : filled rs2 x X [] []
| filled_in u w1 w : der rs2 (NT X) u -> filled rs2 x X w1 w -> filled rs2 x X (TSym x :: w1) (u ++ w)
| filled_same t w1 w : t <> TSym x -> filled rs2 x X w1 w -> filled rs2 x X (t :: w1) (t :: w).

(** [s] consists of the rules of [s1], with the start symbol of [s2] for [x], and those of [s2], in any order *)
Definition nested {N1 T1 E1 N2 T2 E2 N T E} (s1 : syntax N1 T1 E1) (x : nat) (s2 : syntax N2 T2 E2) (s : syntax N T E) : Prop :=
  sx_start s = sx_start s1 /\ Permutation (gram s) (gram s2 ++ map (put_rule x (sx_start s2)) (gram s1)).
(** the start symbol has a rule *)
Definition start_defined {N T E} (s : syntax N T E) : Prop := exists r, In r (gram s) /\ r_lhs r = sx_start s.
