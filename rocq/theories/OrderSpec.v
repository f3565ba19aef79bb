(** * The same rules in another order (specification) *)
From Coq Require Import List Arith Permutation.
From Verif Require Import Lib Grammar LrModel ParseModel Trees ParseSpec LoopSpec.
Import ListNotations.

Section Order.
  Context {N T E : Type} (tix : T -> nat).

  (** the rule [c] cannot take part in a derivation from the start symbol of [s] *)
  Definition useless (s : syntax N T E) (c : crule N T E) : Prop := ~ reachable (gram s) (sx_start s) (r_lhs (cr_rule c)).

  (** both consist of the rules [l], in any order, and rules that cannot be reached *)
  Definition same_rules_any_order (s s' : syntax N T E) : Prop :=
    sx_start s = sx_start s' /\
    exists l u u', Permutation (sx_rules s) (l ++ u) /\ Permutation (sx_rules s') (l ++ u') /\ Forall (useless s) u /\ Forall (useless s') u'.

  (** the second list is the first with rules inserted *)
  Inductive inserted (bad : crule N T E -> Prop) : list (crule N T E) -> list (crule N T E) -> Prop :=
  | ins_nil : inserted bad [] []
  | ins_keep c l l' : inserted bad l l' -> inserted bad (c :: l) (c :: l')
  | ins_new c l l' : bad c -> inserted bad l l' -> inserted bad l (c :: l').
  Definition with_useless_rules (s s' : syntax N T E) : Prop := sx_start s = sx_start s' /\ inserted (useless s') (sx_rules s) (sx_rules s').

  (** the two parsers do the same on all token sequences: they return the same and leave the same in the iterator,
      panic on the same and run forever on the same *)
  Definition same_behaviour (P P' : parser N T E) : Prop := forall w,
    (forall o rest, (exists fuel, parse_full tix P fuel w = Ok (o, rest)) <-> (exists fuel, parse_full tix P' fuel w = Ok (o, rest))) /\
    (panics tix P w <-> panics tix P' w) /\ (diverges tix P w <-> diverges tix P' w).
End Order.
