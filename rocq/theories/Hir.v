(** Specification: regular expressions (the [regex_syntax] HIR that the tokenizer consumes)
    and the textbook language they denote.  This file mentions no automaton. *)
From Verif Require Import Lib.

(** Words are lists of Unicode code points. *)
Definition word := list N.

(** Repetition operators: [e?], [e*], [e+], [e{n}], [e{n,}], [e{n,m}]. *)
Inductive rep :=
| RZeroOrOne | RZeroOrMore | ROneOrMore
| RExactly (n : nat) | RAtLeast (n : nat) | RBounded (n m : nat).

(** Models regex_syntax::hir::HirKind as matched on in tokenizer/src/nfa.rs:247-441.
    [HLitB]/[HClassB] are the byte-oriented literal/class, [HAnchor] and [HWordB] the
    zero-width assertions.  Unicode classes are lists of inclusive ranges. *)
Inductive hir :=
| HEmpty
| HLitU (c : N)
| HLitB (b : N)
| HClassU (rs : list (N * N))
| HClassB (rs : list (N * N))
| HAnchor
| HWordB
| HRep (k : rep) (greedy : bool) (h : hir)
| HGroup (h : hir)
| HConcat (hs : list hir)
| HAlt (hs : list hir).

(** Induction principle with hypotheses for the sub-expressions in lists. *)
Section HirInd.
  Variable P : hir -> Prop.
  Hypothesis HE : P HEmpty.
  Hypothesis HL : forall c, P (HLitU c).
  Hypothesis HLB : forall c, P (HLitB c).
  Hypothesis HC : forall rs, P (HClassU rs).
  Hypothesis HCB : forall rs, P (HClassB rs).
  Hypothesis HA : P HAnchor.
  Hypothesis HW : P HWordB.
  Hypothesis HR : forall k g h, P h -> P (HRep k g h).
  Hypothesis HG : forall h, P h -> P (HGroup h).
  Hypothesis HCc : forall hs, Forall P hs -> P (HConcat hs).
  Hypothesis HAl : forall hs, Forall P hs -> P (HAlt hs).
  Fixpoint hir_ind' (h : hir) : P h :=
    match h with
    | HEmpty => HE | HLitU c => HL c | HLitB c => HLB c | HClassU rs => HC rs | HClassB rs => HCB rs
    | HAnchor => HA | HWordB => HW
    | HRep k g h => HR k g h (hir_ind' h)
    | HGroup h => HG h (hir_ind' h)
    | HConcat hs => HCc hs ((fix go l : Forall P l := match l with [] => Forall_nil _ | x :: l' => Forall_cons _ (hir_ind' x) (go l') end) hs)
    | HAlt hs => HAl hs ((fix go l : Forall P l := match l with [] => Forall_nil _ | x :: l' => Forall_cons _ (hir_ind' x) (go l') end) hs)
    end.
End HirInd.

(** *** Languages *)
Definition lang := word -> Prop.
Definition l_eps : lang := fun w => w = [].
Definition l_none : lang := fun _ => False.
Definition l_cat (A B : lang) : lang := fun w => exists u v, w = u ++ v /\ A u /\ B v.
Definition l_or (A B : lang) : lang := fun w => A w \/ B w.
Fixpoint l_pow (A : lang) (n : nat) : lang :=
  match n with 0 => l_eps | S n' => l_cat A (l_pow A n') end.
(** Kleene star: any number of repetitions. *)
Definition l_star (A : lang) : lang := fun w => exists n, l_pow A n w.

(** A code point belongs to a class. *)
Definition in_class (c : N) (rs : list (N * N)) : Prop :=
  exists lo hi, In (lo, hi) rs /\ (lo <= c)%N /\ (c <= hi)%N.

(** Language of a repetition of [A]. Greediness plays no role. *)
Definition rep_lang (k : rep) (A : lang) : lang :=
  match k with
  | RZeroOrOne => l_or l_eps A
  | RZeroOrMore => l_star A
  | ROneOrMore => fun w => exists n, 1 <= n /\ l_pow A n w
  | RExactly n => l_pow A n
  | RAtLeast n => fun w => exists i, n <= i /\ l_pow A i w
  | RBounded n m => fun w => exists i, n <= i /\ i <= m /\ l_pow A i w
  end.

(** The language denoted by an expression.  The features the tokenizer rejects denote nothing. *)
Fixpoint matches (h : hir) : lang :=
  match h with
  | HEmpty => l_eps
  | HLitU c => fun w => w = [c]
  | HClassU rs => fun w => exists c, w = [c] /\ in_class c rs
  | HLitB _ | HClassB _ | HAnchor | HWordB => l_none
  | HRep k _ h => rep_lang k (matches h)
  | HGroup h => matches h
  | HConcat hs => (fix go l := match l with [] => l_eps | x :: l' => l_cat (matches x) (go l') end) hs
  | HAlt hs => (fix go l := match l with [] => l_none | x :: l' => l_or (matches x) (go l') end) hs
  end.

(** Features for which the tokenizer reports an error, with the error it reports
    (models NFAConstructError, tokenizer/src/nfa.rs:235-241). *)
Inductive nerr := EByteLiteral | EBytesClass | EAnchor | EWordBoundary.

Inductive uses : hir -> nerr -> Prop :=
| uses_litb b : uses (HLitB b) EByteLiteral
| uses_classb rs : uses (HClassB rs) EBytesClass
| uses_anchor : uses HAnchor EAnchor
| uses_wordb : uses HWordB EWordBoundary
| uses_rep k g h e : uses h e -> uses (HRep k g h) e
| uses_group h e : uses h e -> uses (HGroup h) e
| uses_concat hs h e : In h hs -> uses h e -> uses (HConcat hs) e
| uses_alt hs h e : In h hs -> uses h e -> uses (HAlt hs) e.

(** Largest code point. *)
Definition max_char : N := 0x10FFFF%N.

(** Well-formed HIR: what regex_syntax guarantees of its output.  Class ranges are
    non-empty, sorted, disjoint and within Unicode; concatenations are non-empty; [n <= m]. *)
Definition wf_class (rs : list (N * N)) : Prop :=
  Forall (fun r => (fst r <= snd r)%N /\ (snd r <= max_char)%N) rs /\
  StronglySorted (fun r1 r2 => (snd r1 < fst r2)%N) rs.

Definition wf_rep (k : rep) : Prop := match k with RBounded n m => n <= m | _ => True end.

Fixpoint wf_hir (h : hir) : Prop :=
  match h with
  | HEmpty | HLitB _ | HClassB _ | HAnchor | HWordB => True
  | HLitU c => (c <= max_char)%N
  | HClassU rs => wf_class rs
  | HRep k _ h => wf_rep k /\ wf_hir h
  | HGroup h => wf_hir h
  | HConcat hs => hs <> [] /\ (fix go l := match l with [] => True | x :: l' => wf_hir x /\ go l' end) hs
  | HAlt hs => (fix go l := match l with [] => True | x :: l' => wf_hir x /\ go l' end) hs
  end.
