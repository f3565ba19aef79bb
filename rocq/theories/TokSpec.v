(** Specification of tokenization, independent of automata construction. *)
From Verif Require Import Lib Hir.

Section Munch.
  Context {T : Type}.
  (** [accepts w p]: reading exactly [w], the winning pattern is [p] *)
  Variable accepts : word -> nat -> Prop.
  Variable map : T -> N.

  (** [k] items are the longest prefix of [pend] that is accepted, and [p] is the pattern *)
  Definition longest (pend : list T) (k p : nat) : Prop :=
    k <= length pend /\ accepts (List.map map (firstn k pend)) p /\
    forall k' p', k < k' <= length pend -> ~ accepts (List.map map (firstn k' pend)) p'.

  (** no prefix, not even the empty one, is accepted *)
  Definition nothing (pend : list T) : Prop :=
    forall k p, k <= length pend -> ~ accepts (List.map map (firstn k pend)) p.

  (** maximal munch: the patterns and items of the tokens, until nothing matches *)
  Inductive munch : list T -> list (nat * list T) -> Prop :=
  | munch_stop pend : nothing pend -> munch pend []
  | munch_go pend k p rest : longest pend k p -> munch (skipn k pend) rest -> munch pend ((p, firstn k pend) :: rest).
End Munch.

(** the patterns with languages [L 0 .. L (n-1)]: the first one that matches wins *)
Definition first_of (n : nat) (L : nat -> lang) (w : word) (p : nat) : Prop :=
  p < n /\ L p w /\ forall p', p' < p -> ~ L p' w.
