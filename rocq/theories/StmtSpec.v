(** * Statement lists with error recovery (specification)

    The statement language is any grammar; its statements are ended by a token that they do not contain. *)
From Coq Require Import List.
From Verif Require Import Lib Grammar LrModel ParseModel Trees ParseSpec.
Import ListNotations.

Section Stmt.
  Context {N T E : Type} (tix : T -> nat).

  (** R ::= X ; R  |  error ; R  |  (nothing)      added to the rules of X *)
  Definition stmt_list (base : list (crule N T E)) (X R semi : nat) (g1 g2 g3 : reducer N T E) : syntax N T E :=
    mk_syntax (base ++ [ rule_new_raw R [NonTerminal X; Terminal semi; NonTerminal R] g1;
                         rule_new_raw R [ErrorSym tt; Terminal semi; NonTerminal R] g2;
                         rule_new_raw R [] g3 ]) R.

  (** the rules of the statements: no empty right-hand side, no end token, no error symbol, no list *)
  Definition statement_rules (base : list (crule N T E)) (X R semi : nat) : Prop :=
    X <> R /\ forall r, In r base -> r_lhs (cr_rule r) <> R /\ r_rhs (cr_rule r) <> [] /\ ~ In (NT R) (r_rhs (cr_rule r)) /\
      ~ In (TM (TSym semi)) (r_rhs (cr_rule r)) /\ ~ In (TM TErr) (r_rhs (cr_rule r)).

  (** the value of a piece of the input: that of the reducers along a derivation *)
  Inductive value (base : list (crule N T E)) : sym -> list T -> arg N T -> Prop :=
  | value_token x : value base (TM (TSym (tix x))) [x] (Terminal x)
  | value_rule r u args v : In r base -> values base (r_rhs (cr_rule r)) u args -> cr_gen r args = GOk v ->
      value base (NT (r_lhs (cr_rule r))) u (NonTerminal v)
  with values (base : list (crule N T E)) : list sym -> list T -> list (arg N T) -> Prop :=
  | values_nil : values base [] [] []
  | values_cons Y l u u' a args : value base Y u a -> values base l u' args -> values base (Y :: l) (u ++ u') (a :: args).

  Variables (base : list (crule N T E)) (X semi : nat) (g1 g2 g3 : reducer N T E).

  Definition is_stmt (u : list T) : Prop := der (map cr_rule base) (NT X) (kinds tix u).
  Definition can_begin (x : T) : Prop := exists z, der (map cr_rule base) (NT X) (TSym (tix x) :: z).
  Definition no_end (u : list T) : Prop := forall y, In y u -> tix y <> semi.

  (** the tokens that a wrong statement [u] with the end token [x] is reported with *)
  Inductive reported : list T -> T -> list T -> Prop :=
  | reported_none x : reported [] x [x]
  | reported_one y x : ~ can_begin y -> reported [y] x [y]
  | reported_end y x : can_begin y -> reported [y] x [y; x]
  | reported_all y z u x : reported (y :: z :: u) x (y :: z :: u).

  (** every right statement gives its value, every wrong one is reported, by itself *)
  Inductive program : list T -> N -> Prop :=
  | program_end v : g3 [] = GOk v -> program [] v
  | program_stmt u x rest a v' v : no_end u -> tix x = semi -> value base (NT X) u a -> program rest v' ->
      g1 [a; Terminal x; NonTerminal v'] = GOk v -> program (u ++ x :: rest) v
  | program_error u x rest sl v' v : no_end u -> tix x = semi -> ~ is_stmt u -> reported u x sl -> program rest v' ->
      g2 [ErrorSym sl; Terminal x; NonTerminal v'] = GOk v -> program (u ++ x :: rest) v.

  (** nothing follows the last end token *)
  Definition finished (w : list T) : Prop := w = [] \/ exists u x, w = u ++ [x] /\ tix x = semi.
End Stmt.
Scheme value_mut := Minimality for value Sort Prop
with values_mut := Minimality for values Sort Prop.
Combined Scheme value_values_ind from value_mut, values_mut.
