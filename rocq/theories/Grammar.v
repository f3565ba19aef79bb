(** * Context-free grammars: the specification vocabulary of the parser half.

    Nothing in this file is an algorithm of the code base.  It fixes what a grammar is, what it
    derives, which trees it has, and what "an LR(1) item is valid for a prefix" means
    (Knuth's definition); the theorems about the parser are stated with these notions. *)
From Coq Require Import List Arith Lia Bool.
From Verif Require Import Lib.
Import ListNotations.

(** Terminal symbols: the class of a token, the error symbol, the end of the input.
    Models [TerminalSymbol<usize, ()>], parser/src/syntax.rs 116-121 (the derived order is
    [Symbol < Error < EOI]). *)
Inductive term := TSym (t : nat) | TErr | TEoi.

(** Models [SymbolInternal<usize, TerminalSymbol<usize, ()>>], parser/src/parser.rs 11-15
    (derived order [NonTerminal < Terminal]). *)
Inductive sym := NT (n : nat) | TM (t : term).

(** Models [Rule], parser/src/syntax.rs 61-66, without the reducer: the reducers of a grammar are
    kept in a list parallel to its rules (see ParseModel.v). *)
Record rule := mk_rule { r_lhs : nat; r_rhs : list sym }.

(** ** Derivations *)
Section Derivations.
  Variable rs : list rule.

  (** [der X w]: the symbol [X] derives the string [w] of terminals. *)
  Inductive der : sym -> list term -> Prop :=
  | der_term t : der (TM t) [t]
  | der_rule r w : In r rs -> ders (r_rhs r) w -> der (NT (r_lhs r)) w
  with ders : list sym -> list term -> Prop :=
  | ders_nil : ders [] []
  | ders_cons X l u v : der X u -> ders l v -> ders (X :: l) (u ++ v).

  (** [rewr l l']: the string of symbols [l] can be rewritten to [l'], one rule at a time. *)
  Inductive rewr : list sym -> list sym -> Prop :=
  | rewr_refl l : rewr l l
  | rewr_step l1 r l2 l' : In r rs -> rewr (l1 ++ r_rhs r ++ l2) l' -> rewr (l1 ++ NT (r_lhs r) :: l2) l'.

  (** [firsts l t]: some rewriting of the string [l] starts with the terminal [t]. *)
  Definition firsts (l : list sym) (t : term) : Prop := exists l', rewr l (TM t :: l').

  (** Every symbol that occurs in a right-hand side derives some string of terminals. *)
  Definition productive : Prop := forall r X, In r rs -> In X (r_rhs r) -> exists w, der X w.

  (** [A] can be rewritten to itself in one or more steps. *)
  Definition cyclic (A : nat) : Prop := exists r, In r rs /\ r_lhs r = A /\ rewr (r_rhs r) [NT A].
End Derivations.

Scheme der_mut := Minimality for der Sort Prop
with ders_mut := Minimality for ders Sort Prop.
Combined Scheme der_ders_ind from der_mut, ders_mut.

(** ** LR(1) items *)
(** Models [LR1ItemInterop] / [LR1Item], parser/src/parser.rs 17-22 and 78-83. *)
Record item := mk_item { i_rule : nat; i_pos : nat; i_la : term }.

Section Valid.
  Variable rs : list rule.
  Variable sr : nat.

  (** [valid g it]: the item [it] is valid for the string [g] of symbols already recognised, for the
      grammar [rs] whose start rule is number [sr]. *)
  Inductive valid : list sym -> item -> Prop :=
  | valid_start : valid [] (mk_item sr 0 TEoi)
  | valid_goto g k p la r X :
      valid g (mk_item k p la) -> nth_error rs k = Some r -> nth_error (r_rhs r) p = Some X ->
      valid (g ++ [X]) (mk_item k (S p) la)
  | valid_closure g k p la r A k' r' t :
      valid g (mk_item k p la) -> nth_error rs k = Some r -> nth_error (r_rhs r) p = Some (NT A) ->
      nth_error rs k' = Some r' -> r_lhs r' = A ->
      firsts rs (skipn (S p) (r_rhs r) ++ [TM la]) t ->
      valid g (mk_item k' 0 t).

  (** some item valid for [g] asks for the symbol [X] next *)
  Definition wants (g : list sym) (X : sym) : Prop :=
    exists k p la r, valid g (mk_item k p la) /\ nth_error rs k = Some r /\ nth_error (r_rhs r) p = Some X.

  (** rule [k] has been recognised completely and may be followed by [t] *)
  Definition complete (g : list sym) (k : nat) (t : term) : Prop :=
    exists r, nth_error rs k = Some r /\ valid g (mk_item k (length (r_rhs r)) t).
End Valid.

(** ** Orders used by the ordered sets of the code *)
Section OrdTools.
  Definition cmp_pair {A B} `{Ord A} `{Ord B} (x y : A * B) : comparison :=
    match cmp (fst x) (fst y) with Eq => cmp (snd x) (snd y) | c => c end.
End OrdTools.

#[global] Instance Ord_pair {A B} `{Ord A} `{Ord B} : Ord (A * B).
Proof.
  refine {| cmp := cmp_pair |}.
  - intros [a b] [c d]. unfold cmp_pair; simpl. destruct (cmp a c) eqn:E.
    + apply cmp_eq in E. subst. rewrite cmp_eq. split; congruence.
    + split; [discriminate|]. intros E'. injection E' as -> ->. rewrite cmp_refl in E. discriminate.
    + split; [discriminate|]. intros E'. injection E' as -> ->. rewrite cmp_refl in E. discriminate.
  - intros [a b] [c d]. unfold cmp_pair; simpl. rewrite (cmp_anti a c), (cmp_anti b d).
    destruct (cmp a c); reflexivity.
  - intros [a b] [c d] [e f]. unfold cmp_pair; simpl. intros H1 H2.
    destruct (cmp a c) eqn:E1; try discriminate.
    + apply cmp_eq in E1. subst c. destruct (cmp a e); try discriminate; auto. eapply cmp_trans; eauto.
    + destruct (cmp c e) eqn:E2; try discriminate.
      * apply cmp_eq in E2. subst e. rewrite E1. reflexivity.
      * rewrite (cmp_trans _ _ _ E1 E2). reflexivity.
Defined.

Definition Ord_inj {A B} `{Ord B} (f : A -> B) (Hf : forall x y, f x = f y -> x = y) : Ord A.
Proof.
  refine {| cmp := fun x y => cmp (f x) (f y) |}.
  - intros x y. rewrite cmp_eq. split; [apply Hf|congruence].
  - intros x y. apply cmp_anti.
  - intros x y z. apply cmp_trans.
Defined.

Definition term_key (t : term) : nat * nat :=
  match t with TSym t => (0, t) | TErr => (1, 0) | TEoi => (2, 0) end.
Lemma term_key_inj x y : term_key x = term_key y -> x = y.
Proof. destruct x, y; simpl; congruence. Qed.
#[global] Instance Ord_term : Ord term := Ord_inj term_key term_key_inj.

Definition sym_key (x : sym) : nat * (nat * nat) :=
  match x with NT n => (0, (0, n)) | TM t => (1, term_key t) end.
Lemma sym_key_inj x y : sym_key x = sym_key y -> x = y.
Proof.
  destruct x, y; simpl; try congruence. intros H. injection H as H. f_equal. apply term_key_inj. exact H.
Qed.
#[global] Instance Ord_sym : Ord sym := Ord_inj sym_key sym_key_inj.

(** Models the hand-written [Ord] of [LR1ItemInterop], parser/src/parser.rs 56-68: by rule, then
    position, then lookahead. *)
Definition item_key (i : item) : nat * (nat * term) := (i_rule i, (i_pos i, i_la i)).
Lemma item_key_inj x y : item_key x = item_key y -> x = y.
Proof. destruct x, y; unfold item_key; simpl; congruence. Qed.
#[global] Instance Ord_item : Ord item := Ord_inj item_key item_key_inj.
