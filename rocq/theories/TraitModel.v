(** * The hand-written comparison and hashing of the public types (model) *)
From Coq Require Import List Arith NArith Bool.
From Verif Require Import Lib Grammar NfaModel ParseModel.
Import ListNotations.

(** A hash function is modelled by what it writes into the [Hasher], in order.  A number writes itself. (parser/src/syntax.rs:109-114, parser/src/parser.rs:70-76) *)
Definition writes := list N.
(** parser/src/syntax.rs:111 *)
Definition hash_usize (n : nat) : writes := [N.of_nat n].

(** Derived traits of an enum: the variants are compared by their position, then by their fields; the hash
    writes the position of the variant, then the fields.  Those of [TerminalSymbol], parser/src/syntax.rs 116-121
    (the variant [Error] carries a unit, which writes nothing), and of [SymbolInternal], parser.rs 11-15. *)
Definition term_eq (a b : term) : bool :=
  match a, b with TSym x, TSym y => x =? y | TErr, TErr | TEoi, TEoi => true | _, _ => false end.
(** parser/src/syntax.rs:116-121 *)
Definition term_cmp (a b : term) : comparison :=
  match a, b with
  | TSym x, TSym y => x ?= y | TSym _, _ => Lt
  | TErr, TSym _ => Gt | TErr, TErr => Eq | TErr, TEoi => Lt
  | TEoi, TEoi => Eq | TEoi, _ => Gt
  end.
(** parser/src/syntax.rs:116-121 *)
Definition term_hash (t : term) : writes :=
  match t with TSym x => 0%N :: hash_usize x | TErr => [1%N] | TEoi => [2%N] end.
(** parser/src/parser.rs:11-15 *)
Definition sym_eq (a b : sym) : bool :=
  match a, b with NT x, NT y => x =? y | TM x, TM y => term_eq x y | _, _ => false end.
(** parser/src/parser.rs:11-15 *)
Definition sym_cmp (a b : sym) : comparison :=
  match a, b with NT x, NT y => x ?= y | NT _, TM _ => Lt | TM _, NT _ => Gt | TM x, TM y => term_cmp x y end.
(** parser/src/parser.rs:11-15 *)
Definition sym_hash (a : sym) : writes := match a with NT x => 0%N :: hash_usize x | TM t => 1%N :: term_hash t end.

(** [Vec]: equal if of equal length with equal elements; ordered lexicographically; hashed with its length first *)
Section Vecs.
  Context {A : Type} (eq : A -> A -> bool) (cmp : A -> A -> comparison) (hash : A -> writes).
  (** parser/src/syntax.rs:83 *)
  Fixpoint vec_eq (l m : list A) : bool :=
    match l, m with [], [] => true | a :: l', b :: m' => eq a b && vec_eq l' m' | _, _ => false end.
  (** parser/src/syntax.rs:95, 105 *)
  Fixpoint vec_cmp (l m : list A) : comparison :=
    match l, m with
    | [], [] => Eq | [], _ => Lt | _, [] => Gt
    | a :: l', b :: m' => match cmp a b with Eq => vec_cmp l' m' | c => c end
    end.
  (** parser/src/syntax.rs:112 *)
  Definition vec_hash (l : list A) : writes := hash_usize (length l) ++ flat_map hash l.
End Vecs.

(** The traits of [Rule], parser/src/syntax.rs 81-114: [eq] 82-84, [partial_cmp] 90-96, [cmp] 100-106,
    [hash] 110-113.  The reducer is not looked at. *)
Section RuleTraits.
  Context {N T E : Type}.
  (** parser/src/syntax.rs:82-84 *)
  Definition rule_eq (a b : crule N T E) : bool :=
    (r_lhs (cr_rule a) =? r_lhs (cr_rule b)) && vec_eq sym_eq (r_rhs (cr_rule a)) (r_rhs (cr_rule b)).
  (** parser/src/syntax.rs:90-96 *)
  Definition rule_partial_cmp (a b : crule N T E) : option comparison :=
    match Some (r_lhs (cr_rule a) ?= r_lhs (cr_rule b)) with
    | Some Eq => Some (vec_cmp sym_cmp (r_rhs (cr_rule a)) (r_rhs (cr_rule b)))
    | other => other
    end.
  (** parser/src/syntax.rs:100-106 *)
  Definition rule_cmp (a b : crule N T E) : comparison :=
    match r_lhs (cr_rule a) ?= r_lhs (cr_rule b) with
    | Eq => vec_cmp sym_cmp (r_rhs (cr_rule a)) (r_rhs (cr_rule b))
    | other => other
    end.
  (** parser/src/syntax.rs:110-113 *)
  Definition rule_hash (a : crule N T E) : writes :=
    hash_usize (r_lhs (cr_rule a)) ++ vec_hash sym_hash (r_rhs (cr_rule a)).

  (** [PartialEq] of [Syntax], derived, syntax.rs 13-17 *)
  Definition syntax_eq (a b : syntax N T E) : bool :=
    vec_eq rule_eq (sx_rules a) (sx_rules b) && (sx_start a =? sx_start b).
End RuleTraits.

(** The traits of [LR1ItemInterop], parser/src/parser.rs 34-76: [eq] 35-37, [partial_cmp] 43-53, [cmp] 57-67,
    [hash] 71-75 *)
Definition item_eq (a b : item) : bool := (i_rule a =? i_rule b) && (i_pos a =? i_pos b) && term_eq (i_la a) (i_la b).
(** parser/src/parser.rs:43-53 *)
Definition item_partial_cmp (a b : item) : option comparison :=
  match Some (i_rule a ?= i_rule b) with
  | Some Eq => match Some (i_pos a ?= i_pos b) with
               | Some Eq => Some (term_cmp (i_la a) (i_la b))
               | other => other
               end
  | other => other
  end.
(** parser/src/parser.rs:57-67 *)
Definition item_cmp (a b : item) : comparison :=
  match i_rule a ?= i_rule b with
  | Eq => match i_pos a ?= i_pos b with Eq => term_cmp (i_la a) (i_la b) | other => other end
  | other => other
  end.
(** parser/src/parser.rs:71-75 *)
Definition item_hash (a : item) : writes := hash_usize (i_rule a) ++ hash_usize (i_pos a) ++ term_hash (i_la a).

(** The traits of [CharRange], the derived [Hash] tokenizer/src/lib.rs:14 (of [Range<u32>]: start, then end),
    [borrow] 34-38, [eq] 40-44, [partial_cmp] 46-50, [cmp] 52-56 *)
Definition range_hash (r : crange) : writes := [fst r; snd r].
(** tokenizer/src/lib.rs:35-37 *)
Definition range_borrow (r : crange) : N := fst r.
(** tokenizer/src/lib.rs:41-43 *)
Definition range_eq (a b : crange) : bool := N.eqb (fst a) (fst b).
(** tokenizer/src/lib.rs:47-49 *)
Definition range_partial_cmp (a b : crange) : option comparison := Some (N.compare (fst a) (fst b)).
(** tokenizer/src/lib.rs:53-55 *)
Definition range_cmp (a b : crange) : comparison := N.compare (fst a) (fst b).
