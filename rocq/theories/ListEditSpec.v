(** * Editing whole items of a list (specification) *)
From Coq Require Import List Arith.
From Verif Require Import Lib Grammar LrModel ParseModel Trees ParseSpec StmtSpec LeftRecSpec.
Import ListNotations.

Section Edit.
  Context {N T E : Type} (tix : T -> nat).
  Variables (base : list (crule N T E)) (X sep : nat).

  (** what the piece [u] with the separator [x] after it contributes: the value of the item, or what is reported of it *)
  Inductive entry (u : list T) (x : T) : arg N T -> Prop :=
  | entry_right a : value tix base (NT X) u a -> entry u x a
  | entry_wrong sl : ~ is_stmt tix base X u -> reported tix base X u x sl -> entry u x (ErrorSym sl).

  (** what pieces with a separator after each of them contribute, one by one *)
  Inductive row : list T -> list (arg N T) -> Prop :=
  | row_nil : row [] []
  | row_more u x rest a l : no_end tix sep u -> tix x = sep -> entry u x a -> row rest l -> row (u ++ x :: rest) (a :: l).

  Definition separators (w : list T) : nat := length (filter (fun y => tix y =? sep) w).

  (** the input ends in a piece that is not empty *)
  Definition ends_open (w : list T) : Prop := exists w0 y, w = w0 ++ [y] /\ tix y <> sep.
End Edit.
