(** * Statement lists with blocks and error recovery (specification)

    Statements end in a token; a block is a statement list between an opening and a closing token, and stands where a
    statement may stand. *)
From Coq Require Import List.
From Verif Require Import Lib Grammar LrModel ParseModel Trees ParseSpec StmtSpec.
Import ListNotations.

Section Block.
  Context {N T E : Type} (tix : T -> nat).

  (** R ::= X ; R  |  error ; R  |  (nothing)  |  { R } R      added to the rules of X *)
  Definition block_list (base : list (crule N T E)) (X R semi op cl : nat) (g1 g2 g3 g4 : reducer N T E) : syntax N T E :=
    mk_syntax (base ++ [ rule_new_raw R [NonTerminal X; Terminal semi; NonTerminal R] g1;
                         rule_new_raw R [ErrorSym tt; Terminal semi; NonTerminal R] g2;
                         rule_new_raw R [] g3;
                         rule_new_raw R [Terminal op; NonTerminal R; Terminal cl; NonTerminal R] g4 ]) R.

  (** the rules of the statements: those of a statement list, and without the tokens of the blocks *)
  Definition block_rules (base : list (crule N T E)) (X R semi op cl : nat) : Prop :=
    statement_rules base X R semi /\ semi <> op /\ semi <> cl /\ op <> cl /\
    forall r, In r base -> ~ In (TM (TSym op)) (r_rhs (cr_rule r)) /\ ~ In (TM (TSym cl)) (r_rhs (cr_rule r)).

  Variables (base : list (crule N T E)) (X semi op cl : nat) (g1 g2 g3 g4 : reducer N T E).

  (** tokens none of which ends a statement or opens or closes a block *)
  Definition plain (u : list T) : Prop := forall y, In y u -> tix y <> semi /\ tix y <> op /\ tix y <> cl.

  (** inputs whose blocks are closed, with an end token after everything else *)
  Inductive nested : list T -> Prop :=
  | nested_end : nested []
  | nested_stmt u x rest : plain u -> tix x = semi -> nested rest -> nested (u ++ x :: rest)
  | nested_block o body c rest : tix o = op -> nested body -> tix c = cl -> nested rest -> nested (o :: body ++ c :: rest).

  (** every right statement gives its value, every wrong one is reported, by itself, in the block where it is *)
  Inductive blocks : list T -> N -> Prop :=
  | blocks_end v : g3 [] = GOk v -> blocks [] v
  | blocks_stmt u x rest a v' v : plain u -> tix x = semi -> value tix base (NT X) u a -> blocks rest v' ->
      g1 [a; Terminal x; NonTerminal v'] = GOk v -> blocks (u ++ x :: rest) v
  | blocks_error u x rest sl v' v : plain u -> tix x = semi -> ~ is_stmt tix base X u -> reported tix base X u x sl -> blocks rest v' ->
      g2 [ErrorSym sl; Terminal x; NonTerminal v'] = GOk v -> blocks (u ++ x :: rest) v
  | blocks_block o body c rest vb v' v : tix o = op -> blocks body vb -> tix c = cl -> blocks rest v' ->
      g4 [Terminal o; NonTerminal vb; Terminal c; NonTerminal v'] = GOk v -> blocks (o :: body ++ c :: rest) v.
End Block.
