(** * What the calculator should do (specification).  No automata, tables or regular expressions. *)
From Coq Require Import List NArith.
From Verif Require Import Lib Hir TokSpec ExModel.
Import ListNotations.
Local Open Scope list_scope.

(** ** Number texts: the unsigned decimal numbers of [f64::from_str] (documentation of the standard
    library): digits with at most one point and at least one digit, then perhaps an exponent *)
Definition digit (c : N) : Prop := (48 <= c <= 57)%N.
Definition digits (w : list N) : Prop := Forall digit w.
Definition mantissa (w : list N) : Prop :=
  (w <> [] /\ digits w) \/ exists a b, w = a ++ [46%N] ++ b /\ digits a /\ digits b /\ (a <> [] \/ b <> []).
Definition exponent (w : list N) : Prop :=
  exists e s b, w = [e] ++ s ++ b /\ (e = 69%N \/ e = 101%N) /\ (s = [] \/ s = [43%N] \/ s = [45%N]) /\ digits b /\ b <> [].
Definition number_text (w : list N) : Prop := exists m x, w = m ++ x /\ mantissa m /\ (x = [] \/ exponent x).
(** [parse] accepts them all *)
Definition parses_numbers {F} (fo : floats F) : Prop := forall w, number_text w -> fparse fo w <> None.

(** ** Lexemes: the texts of the nine kinds, numbered in order of priority *)
Definition lexeme (i : nat) (w : list N) : Prop :=
  match i with
  | 0 => number_text w
  | 1 => w = [43%N] (* + *)
  | 2 => w = [45%N] (* - *)
  | 3 => w = [42%N] (* * *)
  | 4 => w = [47%N] (* / *)
  | 5 => w = [40%N] (* ( *)
  | 6 => w = [41%N] (* ) *)
  | 7 => w = [115; 113; 114; 116]%N (* sqrt *)
  | 8 => exists c, w = [c] /\ (c <= max_char)%N
  | _ => False
  end.
Section Spec.
  Context {F : Type} (fo : floats F).

  (** the token of a lexeme; anything else is skipped *)
  Inductive token_of : nat * list N -> list (token F) -> Prop :=
  | to_number w n : fparse fo w = Some n -> token_of (0, w) [Number n]
  | to_add w : token_of (1, w) [Add]
  | to_sub w : token_of (2, w) [Sub]
  | to_mul w : token_of (3, w) [Mul]
  | to_div w : token_of (4, w) [Div]
  | to_open w : token_of (5, w) [Bracket]
  | to_close w : token_of (6, w) [CloseBracket]
  | to_sqrt w : token_of (7, w) [Sqrt]
  | to_skip w : token_of (8, w) [].
  (** the tokens of a line: longest lexemes, the first kind of equal length, from left to right *)
  Definition lexes (line : list N) (ts : list (token F)) : Prop :=
    exists lexemes parts, munch (first_of 9 lexeme) (fun c => c) line lexemes /\ Forall2 token_of lexemes parts /\ ts = concat parts.

  (** ** The value of a token sequence: sums of products of blocks, from left to right *)
  Inductive is_sum : list (token F) -> F -> Prop :=
  | sum_add u v a b : is_sum u a -> is_product v b -> is_sum (u ++ [Add] ++ v) (fadd fo a b)
  | sum_sub u v a b : is_sum u a -> is_product v b -> is_sum (u ++ [Sub] ++ v) (fsub fo a b)
  | sum_one u a : is_product u a -> is_sum u a
  with is_product : list (token F) -> F -> Prop :=
  | product_mul u v a b : is_product u a -> is_block v b -> is_product (u ++ [Mul] ++ v) (fmul fo a b)
  | product_div u v a b : is_product u a -> is_block v b -> is_product (u ++ [Div] ++ v) (fdiv fo a b)
  | product_one u a : is_block u a -> is_product u a
  with is_block : list (token F) -> F -> Prop :=
  | block_number n : is_block [Number n] n
  | block_plus n : is_block [Add; Number n] n
  | block_minus n : is_block [Sub; Number n] (fneg fo n)
  | block_bracket u a : is_sum u a -> is_block ([Bracket] ++ u ++ [CloseBracket]) a
  | block_sqrt u a : is_block u a -> is_block ([Sqrt] ++ u) (fsqrt fo a).
End Spec.
Scheme is_sum_mut := Minimality for is_sum Sort Prop
with is_product_mut := Minimality for is_product Sort Prop
with is_block_mut := Minimality for is_block Sort Prop.
Combined Scheme calc_ind from is_sum_mut, is_product_mut, is_block_mut.

(** ** What regex_syntax makes of the patterns *)
Definition h_digit : hir := HClassU [(48, 57)%N].
Definition h_digits : hir := HRep ROneOrMore true h_digit.
Definition h_number : hir := HConcat [
  HGroup (HAlt [h_digits;
                HConcat [h_digits; HLitU 46%N; HRep RZeroOrMore true h_digit];
                HConcat [HRep RZeroOrMore true h_digit; HLitU 46%N; h_digits]]);
  HRep RZeroOrOne true (HGroup (HConcat [HClassU [(69, 69); (101, 101)]%N; HRep RZeroOrOne true (HClassU [(43, 43); (45, 45)]%N); h_digits]))].
Definition calc_hirs : list hir := [
  h_number; HLitU 43%N; HLitU 45%N; HLitU 42%N; HLitU 47%N; HLitU 40%N; HLitU 41%N;
  HConcat [HLitU 115%N; HLitU 113%N; HLitU 114%N; HLitU 116%N];
  HAlt [HClassU [(0, 9); (11, max_char)]%N; HLitU 10%N]].
