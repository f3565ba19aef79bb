(** * White space (specification for C82) *)
From Coq Require Import List NArith.
From Verif Require Import Lib Hir.
Import ListNotations.

Section Layout.
  Context {T : Type}.
  Variables (f : T -> N) (sep : N -> Prop).

  (** [in_words text ws]: [ws] are the words of the text: what is left when it is cut at all separator characters,
      without empty pieces (as [str::split_whitespace] does) *)
  Inductive in_words : list T -> list (list T) -> Prop :=
  | iw_end : in_words [] []
  | iw_sep x l ws : sep (f x) -> in_words l ws -> in_words (x :: l) ws
  | iw_word w l ws : w <> [] -> Forall (fun x => ~ sep (f x)) w -> (forall x l', l = x :: l' -> sep (f x)) -> in_words l ws ->
      in_words (w ++ l) (w :: ws).
End Layout.

(** [Iterator::flatten] on options *)
Definition somes {K} (l : list (option K)) : list K := flat_map (fun o => match o with Some k => [k] | None => [] end) l.
