(** * What a conflict is resolved to (specification): the moves that build a tree, and which are preferred *)
From Coq Require Import List Arith.
From Verif Require Import Lib Grammar Trees.
Import ListNotations.

(** to take the next token, or to apply rule number [k] to the last symbols *)
Inductive move := Shift1 | Reduce1 (k : nat).

(** the moves that build a tree from left to right, children before their parent *)
Fixpoint moves (t : tree) : list move :=
  match t with Leaf _ => [Shift1] | Bad _ _ => [] | Node k ts => flat_map moves ts ++ [Reduce1 k] end.

(** [better a b]: where the moves [a] and [b] differ for the first time, [a] takes a token and [b] applies a rule, or
    both apply a rule and that of [a] was added to the grammar earlier *)
Inductive better : list move -> list move -> Prop :=
| better_shift k a b : better (Shift1 :: a) (Reduce1 k :: b)
| better_rule k k' a b : k < k' -> better (Reduce1 k :: a) (Reduce1 k' :: b)
| better_later x a b : better a b -> better (x :: a) (x :: b).

(** ... or [a] is done when [b] goes on *)
Inductive preferred : list move -> list move -> Prop :=
| pref_better a b : better a b -> preferred a b
| pref_done a x b : preferred a (a ++ x :: b).

(** [t'] is [t] with one occurrence of the tree [u] replaced by [u'] *)
Inductive replaced (u u' : tree) : tree -> tree -> Prop :=
| rep_here : replaced u u' u u'
| rep_in k l1 t t' l2 : replaced u u' t t' -> replaced u u' (Node k (l1 ++ t :: l2)) (Node k (l1 ++ t' :: l2)).
(** the tree [u] occurs in [t] *)
Inductive occurs (u : tree) : tree -> Prop :=
| occ_here : occurs u u
| occ_in k l1 t l2 : occurs u t -> occurs u (Node k (l1 ++ t :: l2)).
