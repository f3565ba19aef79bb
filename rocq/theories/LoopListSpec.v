(** * Lists and options in a grammar (specification) *)
From Coq Require Import List.
From Verif Require Import Lib Grammar LrModel ParseModel Trees ParseSpec.
Import ListNotations.

(** [u] is [w] with some elements left out *)
Inductive subsequence {A : Type} : list A -> list A -> Prop :=
| sub_nil w : subsequence [] w
| sub_take x u w : subsequence u w -> subsequence (x :: u) (x :: w)
| sub_skip x u w : subsequence u w -> subsequence u (x :: w).

Section Lists.
  Context {N T E : Type} (tix : T -> nat) (rules : list (crule N T E)).

  (** [part X u a]: the argument [a] is made for the symbol [X] by the reducers along a derivation that takes the tokens [u] *)
  Inductive part : sym -> list T -> arg N T -> Prop :=
  | part_token x : part (TM (TSym (tix x))) [x] (Terminal x)
  | part_error sl : part (TM TErr) [] (ErrorSym sl)
  | part_rule r u args v : In r rules -> parts (r_rhs (cr_rule r)) u args -> cr_gen r args = GOk v -> part (NT (r_lhs (cr_rule r))) u (NonTerminal v)
  with parts : list sym -> list T -> list (arg N T) -> Prop :=
  | parts_nil : parts [] [] []
  | parts_cons X l u u' a args : part X u a -> parts l u' args -> parts (X :: l) (u ++ u') (a :: args).

  (** the rules for [L] are these two *)
  Definition only_rules (L : nat) (r0 r1 : crule N T E) : Prop :=
    In r0 rules /\ In r1 rules /\ forall r, In r rules -> r_lhs (cr_rule r) = L -> r = r0 \/ r = r1.

  (** [u] is a sequence of pieces for the symbols [m]; the arguments of each *)
  Definition repeated (m : list sym) (u : list T) (l : list (list (arg N T))) : Prop :=
    exists us, u = concat us /\ Forall2 (parts m) us l.

  (** the reducer of the list rule is applied to one piece after the other: beginning with the first, with the last *)
  Definition from_left (g : reducer N T E) (v0 : N) (l : list (list (arg N T))) : gres N E :=
    fold_left (fun acc args => gbind acc (fun v => g (NonTerminal v :: args))) l (GOk v0).
  Definition from_right (g : reducer N T E) (v0 : N) (l : list (list (arg N T))) : gres N E :=
    fold_right (fun args acc => gbind acc (fun v => g (args ++ [NonTerminal v]))) (GOk v0) l.
End Lists.
Scheme part_mut := Minimality for part Sort Prop
with parts_mut := Minimality for parts Sort Prop.
Combined Scheme part_parts_ind from part_mut, parts_mut.
