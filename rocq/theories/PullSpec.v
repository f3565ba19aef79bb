(** * What an iterator delivers (specification) *)
From Coq Require Import List NArith.
From Verif Require Import Lib.
Import ListNotations.

Section Pulls.
  Context {S T : Type} (pull : S -> res (option T * S)).

  (** asked [length l] times, the iterator in the state [s] delivers the items [l]; then it is in the state [s'] *)
  Inductive pulls : S -> list T -> S -> Prop :=
  | pulls_nil s : pulls s [] s
  | pulls_cons s x s1 l s2 : pull s = Ok (Some x, s1) -> pulls s1 l s2 -> pulls s (x :: l) s2.

  (** ... and asked once more, says that it is at the end *)
  Definition delivers (s : S) (l : list T) (s' : S) : Prop := exists s1, pulls s l s1 /\ pull s1 = Ok (None, s').

  (** the iterator is at the end and stays there, as a fused one does *)
  Definition over (s : S) : Prop := exists D : S -> Prop, D s /\ forall x, D x -> exists y, pull x = Ok (None, y) /\ D y.
End Pulls.

Section Mapped.
  Context {M T : Type} (mapf : M -> T -> res (N * M)).
  (** called on the items [l] in their order, the closure returns the characters [cs] *)
  Inductive mapped : M -> list T -> list N -> M -> Prop :=
  | mapped_nil m : mapped m [] [] m
  | mapped_cons m x c m1 l cs m2 : mapf m x = Ok (c, m1) -> mapped m1 l cs m2 -> mapped m (x :: l) (c :: cs) m2.
End Mapped.
