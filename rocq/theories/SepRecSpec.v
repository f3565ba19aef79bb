(** * Separated lists with error recovery (specification)

    The item language is any grammar; its items are separated by a token that they do not contain. *)
From Coq Require Import List.
From Verif Require Import Lib Grammar LrModel ParseModel Trees ParseSpec StmtSpec.
Import ListNotations.

Section SepRec.
  Context {N T E : Type} (tix : T -> nat).

  (** R ::= X sep R  |  error sep R  |  X      added to the rules of X *)
  Definition rec_list (base : list (crule N T E)) (X R sep : nat) (g1 g2 g3 : reducer N T E) : syntax N T E :=
    mk_syntax (base ++ [ rule_new_raw R [NonTerminal X; Terminal sep; NonTerminal R] g1;
                         rule_new_raw R [ErrorSym tt; Terminal sep; NonTerminal R] g2;
                         rule_new_raw R [NonTerminal X] g3 ]) R.

  Variables (base : list (crule N T E)) (X sep : nat) (g1 g2 g3 : reducer N T E).

  (** every right item gives its value, every wrong one is reported, by itself; the last one is right *)
  Inductive read_list : list T -> N -> Prop :=
  | read_last u a v : no_end tix sep u -> value tix base (NT X) u a -> g3 [a] = GOk v -> read_list u v
  | read_item u x rest a v' v : no_end tix sep u -> tix x = sep -> value tix base (NT X) u a -> read_list rest v' ->
      g1 [a; Terminal x; NonTerminal v'] = GOk v -> read_list (u ++ x :: rest) v
  | read_error u x rest sl v' v : no_end tix sep u -> tix x = sep -> ~ is_stmt tix base X u -> reported tix base X u x sl -> read_list rest v' ->
      g2 [ErrorSym sl; Terminal x; NonTerminal v'] = GOk v -> read_list (u ++ x :: rest) v.

  (** what follows the last separator is an item *)
  Definition last_right (w : list T) : Prop :=
    exists u, no_end tix sep u /\ is_stmt tix base X u /\ (w = u \/ exists w0 x, tix x = sep /\ w = w0 ++ x :: u).
End SepRec.
