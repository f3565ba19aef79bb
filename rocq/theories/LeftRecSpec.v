(** * Separated lists written with left recursion, with error recovery (specification)

    The item language is any grammar; its items are separated by a token that they do not contain. *)
From Coq Require Import List.
From Verif Require Import Lib Grammar LrModel ParseModel Trees ParseSpec StmtSpec.
Import ListNotations.

Section LeftRec.
  Context {N T E : Type} (tix : T -> nat).

  (** R ::= X  |  error  |  R sep X  |  R sep error      added to the rules of X *)
  Definition left_rec (base : list (crule N T E)) (X R sep : nat) (g1 g2 g3 g4 : reducer N T E) : syntax N T E :=
    mk_syntax (base ++ [ rule_new_raw R [NonTerminal X] g1;
                         rule_new_raw R [ErrorSym tt] g2;
                         rule_new_raw R [NonTerminal R; Terminal sep; NonTerminal X] g3;
                         rule_new_raw R [NonTerminal R; Terminal sep; ErrorSym tt] g4 ]) R.

  Variables (base : list (crule N T E)) (X sep : nat) (g1 g2 g3 g4 : reducer N T E).

  (** some item starts with these tokens *)
  Definition begins (u : list T) : Prop := exists z, der (map cr_rule base) (NT X) (kinds tix u ++ z).

  (** what one piece [u] of the input [w] stands for; [nx] is the separator after it, if there is one *)
  Inductive piece (w u : list T) : option T -> arg N T -> Prop :=
  | piece_right nx a : value tix base (NT X) u a -> piece w u nx a
  | piece_wrong x sl : ~ is_stmt tix base X u -> reported tix base X u x sl -> piece w u (Some x) (ErrorSym sl)
  | piece_last : u <> [] -> ~ begins u -> piece w u None (ErrorSym u)
  | piece_missing y w' : u = [] -> w = y :: w' -> piece w u None (ErrorSym [y]).

  (** the reducer of the rule with an item or of the one with the error symbol *)
  Definition which (a : arg N T) (item wrong : reducer N T E) : reducer N T E :=
    match a with ErrorSym _ => wrong | _ => item end.

  (** the value of the pieces from the first one on *)
  Inductive left_value (w : list T) : list T -> option T -> N -> Prop :=
  | left_first u nx a v : no_end tix sep u -> piece w u nx a -> which a g1 g2 [a] = GOk v -> left_value w u nx v
  | left_more w0 x u nx v0 a v : left_value w w0 (Some x) v0 -> tix x = sep -> no_end tix sep u -> piece w u nx a ->
      which a g3 g4 [NonTerminal v0; Terminal x; a] = GOk v -> left_value w (w0 ++ x :: u) nx v.

  (** the input stops within an item *)
  Definition unfinished (w : list T) : Prop :=
    exists u, no_end tix sep u /\ u <> [] /\ begins u /\ ~ is_stmt tix base X u /\ (w = u \/ exists w0 x, tix x = sep /\ w = w0 ++ x :: u).
End LeftRec.
