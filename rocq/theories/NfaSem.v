(** Exact input/output behaviour of the NFA construction, as four languages per
    expression: the words leading from {begin, end} to {begin, end}.  This is an
    intermediate specification; the trusted one is [Hir.matches]. *)
From Verif Require Import Lib Hir NfaPath.

Inductive side := B | E.
Definition mat := side -> side -> lang.

Definition m_atom (L : lang) : mat := fun x y =>
  match x, y with B, E => L | E, B => l_none | _, _ => l_eps end.

(** an epsilon edge from side [u] to side [v] *)
Inductive m_add (M : mat) (u v x : side) : side -> word -> Prop :=
| ma_base w y : M x y w -> m_add M u v x y w
| ma_step w1 w2 y : m_add M u v x u w1 -> M v y w2 -> m_add M u v x y (w1 ++ w2).

Definition m_cat (M1 M2 : mat) : mat := fun x y =>
  match x, y with
  | B, E => l_cat (M1 B E) (M2 B E)
  | B, B => M1 B B
  | E, E => M2 E E
  | E, B => l_none
  end.

Definition m_star (M : mat) : mat := fun _ _ => m_add M E B B B.

Definition m_exactly (n : nat) (M : mat) : mat := fun x y =>
  match x, y with
  | B, E => l_pow (M B E) n
  | B, B => M B B
  | E, E => M E E
  | E, B => l_none
  end.

Definition m_at_least (n : nat) (M : mat) : mat := fun x y =>
  match x, y with
  | B, E => l_cat (l_pow (M B E) n) (m_add M E B B B)
  | B, B => M B B
  | E, E => m_add M E B B B
  | E, B => l_none
  end.

Definition l_between (A : lang) (n m : nat) : lang := fun w => exists i, n <= i /\ i < m /\ l_pow A i w.

Definition m_bounded (n m : nat) (M : mat) : mat := fun x y =>
  match x, y with
  | B, E => l_or (l_cat (l_between (M B E) n m) (M E E)) (l_pow (M B E) m)
  | B, B => M B B
  | E, E => M E E
  | E, B => l_none
  end.

Definition rep_mat (k : rep) (M : mat) : mat :=
  match k with
  | RZeroOrOne => m_add M B E
  | RZeroOrMore => m_star M
  | ROneOrMore => m_add M E B
  | RExactly n => match n with 0 => fun _ _ => l_eps | 1 => M | _ => m_exactly n M end
  | RAtLeast n => match n with 0 => m_star M | _ => m_at_least n M end
  | RBounded n m =>
      match n, m with
      | 0, 0 => fun _ _ => l_eps
      | 0, 1 => m_add M B E
      | 0, _ => m_add (m_bounded 1 m M) B E
      | 1, 1 => M
      | _, _ => if Nat.eqb n m then m_exactly n M else m_bounded n m M
      end
  end.

Fixpoint sem (h : hir) : mat :=
  match h with
  | HEmpty => fun _ _ w => Forall (fun c => (c <= max_char)%N) w
  | HLitU c => m_atom (fun w => w = [c])
  | HClassU rs => m_atom (fun w => exists c, w = [c] /\ in_class c rs)
  | HLitB _ | HClassB _ | HAnchor | HWordB => fun _ _ => l_none
  | HRep k _ h => rep_mat k (sem h)
  | HGroup h => sem h
  | HConcat hs =>
      (fix go l := match l with
        | [] => fun _ _ => l_none
        | [x] => sem x
        | x :: l' => m_cat (sem x) (go l')
        end) hs
  | HAlt hs => m_atom ((fix go l := match l with [] => l_none | x :: l' => l_or (sem x B E) (go l') end) hs)
  end.
