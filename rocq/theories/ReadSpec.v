(** * Writing out tokens and reading them back (specification)

    A token is written as the pattern and the items it was made from. *)
From Coq Require Import List NArith.
From Verif Require Import Lib Hir TokSpec.
Import ListNotations.

Section Read.
  Context {T : Type}.
  Variable accepts : word -> nat -> Prop.
  Variable f : T -> N.

  (** the text of the tokens, one after the other *)
  Definition written (toks : list (nat * list T)) : list T := concat (map snd toks).

  (** every token is accepted by its pattern, and none could go on into the text behind it *)
  Inductive readable : list (nat * list T) -> Prop :=
  | readable_nil : readable []
  | readable_cons p u rest : accepts (map f u) p -> (forall a b q, a <> [] -> written rest = a ++ b -> ~ accepts (map f (u ++ a)) q) ->
      readable rest -> readable ((p, u) :: rest).

  (** tokens that consist of separators alternate with tokens without separators *)
  Variable sep : N -> Prop.
  Definition spaces (u : list T) : Prop := Forall sep (map f u).
  Definition solid (u : list T) : Prop := Forall (fun c => ~ sep c) (map f u).
  Inductive spaced : list (nat * list T) -> Prop :=
  | spaced_nil : spaced []
  | spaced_one x : spaced [x]
  | spaced_cons x y l : (spaces (snd x) /\ solid (snd y)) \/ (solid (snd x) /\ spaces (snd y)) -> spaced (y :: l) -> spaced (x :: y :: l).
End Read.
