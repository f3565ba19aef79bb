(** * Three ways to write a list of items with error recovery (specification)

    [StmtSpec.stmt_list]: R ::= X sep R | error sep R | (nothing);  [SepRecSpec.rec_list]: R ::= X sep R | error sep R | X;
    [LeftRecSpec.left_rec]: R ::= X | error | R sep X | R sep error. *)
From Coq Require Import List.
From Verif Require Import Lib Grammar LrModel ParseModel Trees ParseSpec StmtSpec.
Import ListNotations.

Section Ways.
  Context {N T E : Type} (tix : T -> nat).
  Variables (base : list (crule N T E)) (X sep : nat).

  (** the entries of an input: for each piece between separators its value, if it is an item, or what is reported of it; the last
      piece is an item *)
  Inductive entries : list T -> list (arg N T) -> Prop :=
  | entries_last u a : no_end tix sep u -> value tix base (NT X) u a -> entries u [a]
  | entries_right u x rest a l : no_end tix sep u -> tix x = sep -> value tix base (NT X) u a -> entries rest l -> entries (u ++ x :: rest) (a :: l)
  | entries_wrong u x rest sl l : no_end tix sep u -> tix x = sep -> ~ is_stmt tix base X u -> reported tix base X u x sl -> entries rest l ->
      entries (u ++ x :: rest) (ErrorSym sl :: l).

  (** reducers that collect: [view] shows the list that a value stands for, [elem] how an entry is kept *)
  Context {A : Type} (view : N -> list A) (elem : arg N T -> A).
  Definition starts_empty (g : reducer N T E) : Prop := forall v, g [] = GOk v -> view v = [].
  Definition starts_with (g : reducer N T E) : Prop := forall a v, g [a] = GOk v -> view v = [elem a].
  Definition inserts (g : reducer N T E) : Prop := forall a x v' v, g [a; Terminal x; NonTerminal v'] = GOk v -> view v = elem a :: view v'.
  Definition pushes (g : reducer N T E) : Prop := forall a x v' v, g [NonTerminal v'; Terminal x; a] = GOk v -> view v = view v' ++ [elem a].
End Ways.
