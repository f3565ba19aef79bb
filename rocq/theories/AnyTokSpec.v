(** * What an implementation of Tokenizer recognises, and how a call of next looks at the input (specification) *)
From Coq Require Import List Arith NArith.
From Verif Require Import Lib AnyTokModel.
Import ListNotations.

Section Language.
  Context {E T W : Type} (I : implementation E T W).
  (** reading [cs] from the beginning leads to the node [n] *)
  Inductive walk : list N -> nat -> Prop :=
  | walk_nil b : im_begin I = Ok b -> walk [] b
  | walk_snoc cs n c n' : walk cs n -> im_next I n c = Ok (Some n') -> walk (cs ++ [c]) n'.
  (** after [cs] there is no way on with [c] *)
  Definition stuck (cs : list N) (c : N) : Prop := exists n, walk cs n /\ im_next I n c = Ok None.
  (** [cs] is accepted for the pattern [p] *)
  Definition im_accepts (cs : list N) (p : nat) : Prop := exists n, walk cs n /\ im_accept I n = Ok (Some p).
  (** no method panics (or hangs) on a node that can be reached *)
  Definition safe : Prop := (exists b, im_begin I = Ok b) /\
    forall cs n, walk cs n -> (exists a, im_accept I n = Ok a) /\ forall c, exists r, im_next I n c = Ok r.
  (** [k] is the length of the longest prefix of [cs] that is accepted, for the pattern [p] *)
  Definition longest_in (cs : list N) (k p : nat) : Prop :=
    k <= length cs /\ im_accepts (firstn k cs) p /\ forall k' p', k < k' <= length cs -> ~ im_accepts (firstn k' cs) p'.
  Definition none_in (cs : list N) : Prop := forall k p, k <= length cs -> ~ im_accepts (firstn k cs) p.
End Language.

Section Looks.
  Context {T W : Type} (pull : W -> res (option T) * W) (mapf : T -> W -> res N * W).
  (** From the state [w] with the pushed back items [q], the items [l] are looked at one after the other: pushed back items first,
      then items of the iterator.  Each is mapped to its character before the next is taken.  Afterwards the items [q'] are left of
      those pushed back, and the state is [w']. *)
  Inductive looks : list T -> W -> list T -> list N -> list T -> W -> Prop :=
  | looks_nil q w : looks q w [] [] q w
  | looks_back x q w c w1 l cs q' w' : mapf x w = (Ok c, w1) -> looks q w1 l cs q' w' -> looks (x :: q) w (x :: l) (c :: cs) q' w'
  | looks_new x w w1 c w2 l cs q' w' : pull w = (Ok (Some x), w1) -> mapf x w1 = (Ok c, w2) -> looks [] w2 l cs q' w' -> looks [] w (x :: l) (c :: cs) q' w'.
  (** the next item that would be looked at is [x]; taking it leads to [q'] and [w'] *)
  Definition takes (q : list T) (w : W) (x : T) (q' : list T) (w' : W) : Prop :=
    (q = x :: q' /\ w' = w) \/ (q = [] /\ q' = [] /\ pull w = (Ok (Some x), w')).
End Looks.

Section Made.
  Context {E T X : Type} (f : T -> N) (mk : nat -> list N -> list T -> X -> res E * X).
  (** the makers, called for the tokens [toks] (pattern and items) one after the other, make the values [es] *)
  Inductive made : X -> list (nat * list T) -> list E -> X -> Prop :=
  | made_nil x : made x [] [] x
  | made_cons x p xs e x1 toks es x2 : mk p (map f xs) xs x = (Ok e, x1) -> made x1 toks es x2 -> made x ((p, xs) :: toks) (e :: es) x2.
End Made.
