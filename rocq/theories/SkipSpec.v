(** * The part of the input that a run has not consumed yet; used to state C72 *)
From Coq Require Import List Arith.
From Verif Require Import Lib Grammar ParseModel.
Import ListNotations.

(** the token behind a look-ahead cell of the buffer *)
Definition unread_cell {T} (syms : list T) (c : term * nat) : list T :=
  match fst c with TSym _ => match nth_error syms (snd c) with Some x => [x] | None => [] end | _ => [] end.
(** the tokens that were put back or looked at, and then what the iterator has not given yet *)
Definition unread {N T} (st : pstate N T) : list T := flat_map (unread_cell (ps_syms st)) (ps_buf st) ++ ps_iter st.
