(** * Brackets with error recovery (specification)

    Anywhere in a language, [op X cl] may stand for [Y]; when what is between the brackets is wrong, the error symbol stands
    for it. *)
From Coq Require Import List.
From Verif Require Import Lib Grammar LrModel ParseModel Trees ParseSpec StmtSpec.
Import ListNotations.

Section Bracket.
  Context {N T E : Type} (tix : T -> nat).

  (** Y ::= ( X )  |  ( error )      added to any rules *)
  Definition bracket_syntax (base : list (crule N T E)) (X Y op cl start : nat) (g1 g2 : reducer N T E) : syntax N T E :=
    mk_syntax (base ++ [ rule_new_raw Y [Terminal op; NonTerminal X; Terminal cl] g1;
                         rule_new_raw Y [Terminal op; ErrorSym tt; Terminal cl] g2 ]) start.

  (** the other rules: no empty right-hand side, no error symbol, not these brackets *)
  Definition bracket_rules (base : list (crule N T E)) (op cl : nat) : Prop :=
    op <> cl /\ forall r, In r base -> r_rhs (cr_rule r) <> [] /\ ~ In (TM TErr) (r_rhs (cr_rule r)) /\
      ~ In (TM (TSym op)) (r_rhs (cr_rule r)) /\ ~ In (TM (TSym cl)) (r_rhs (cr_rule r)).

  Variables (base : list (crule N T E)) (X Y op cl start : nat) (g1 g2 : reducer N T E).
  Notation all := (sx_rules (bracket_syntax base X Y op cl start g1 g2)).

  (** without brackets inside *)
  Definition flat (u : list T) : Prop := forall y, In y u -> tix y <> op /\ tix y <> cl.

  (** [reads Z u a]: [u] is an input for the symbol [Z], right but for what stands between some innermost brackets, and
      [a] is its value; the wrong parts are reported, each by itself *)
  Inductive reads : sym -> list T -> arg N T -> Prop :=
  | reads_token x : reads (TM (TSym (tix x))) [x] (Terminal x)
  | reads_rule r u args v : In r base -> readss (r_rhs (cr_rule r)) u args -> cr_gen r args = GOk v ->
      reads (NT (r_lhs (cr_rule r))) u (NonTerminal v)
  | reads_group o u c a v : tix o = op -> reads (NT X) u a -> tix c = cl -> g1 [Terminal o; a; Terminal c] = GOk v ->
      reads (NT Y) (o :: u ++ [c]) (NonTerminal v)
  | reads_error o u c sl v : tix o = op -> flat u -> tix c = cl -> ~ is_stmt tix all X u -> reported tix all X u c sl ->
      g2 [Terminal o; ErrorSym sl; Terminal c] = GOk v -> reads (NT Y) (o :: u ++ [c]) (NonTerminal v)
  with readss : list sym -> list T -> list (arg N T) -> Prop :=
  | readss_nil : readss [] [] []
  | readss_cons Z l u u' a args : reads Z u a -> readss l u' args -> readss (Z :: l) (u ++ u') (a :: args).
End Bracket.
Scheme reads_mut := Minimality for reads Sort Prop
with readss_mut := Minimality for readss Sort Prop.
Combined Scheme reads_readss_ind from reads_mut, readss_mut.
