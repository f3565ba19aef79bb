(** * The recovering lists of C106 under one name; used to state C107 *)
From Coq Require Import List.
From Verif Require Import Lib Grammar ParseModel StmtSpec SepRecSpec LeftRecSpec.
Import ListNotations.

(** R ::= X ; R | error ; R | (nothing),   R ::= X , R | error , R | X,   or   R ::= X | error | R , X | R , error,
    added to the rules of X *)
Definition recovering_list {N T E} (base : list (crule N T E)) (X R sep : nat) (s : syntax N T E) : Prop :=
  (exists g1 g2 g3, s = stmt_list base X R sep g1 g2 g3) \/
  (exists g1 g2 g3, s = rec_list base X R sep g1 g2 g3) \/
  (exists g1 g2 g3 g4, s = left_rec base X R sep g1 g2 g3 g4).
