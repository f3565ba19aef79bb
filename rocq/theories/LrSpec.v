(** * What it means for tables to be the canonical LR(1) tables of a grammar (specification) *)
From Coq Require Import List Arith Bool.
From Verif Require Import Lib Grammar LrModel.
Import ListNotations.

(** Where a table leads from state [s] over the symbol [X]: a shift or a goto entry. *)
Definition next_state (p : lr_parser) (s : nat) (X : sym) : option nat :=
  match X with
  | TM t => match aget eqb s (p_action p) with
            | Some row => match aget eqb t row with Some (Shift s') => Some s' | _ => None end
            | None => None
            end
  | NT n => match aget eqb s (p_goto p) with Some row => aget eqb n row | None => None end
  end.
Fixpoint run (p : lr_parser) (s : nat) (g : list sym) : option nat :=
  match g with
  | [] => Some s
  | X :: g' => match next_state p s X with Some s' => run p s' g' | None => None end
  end.
(** the state after reading the string [g] of symbols *)
Definition state_of (p : lr_parser) (g : list sym) : option nat := run p (p_start p) g.

(** The augmented grammar, parser/src/parser.rs 334-335. *)
Definition augment (rules : list rule) (start ss : nat) : list rule := rules ++ [mk_rule ss [NT start]].

Section Canonical.
  Variables (rs : list rule) (sr : nat).

  (** The start rule has been recognised completely. *)
  Definition accepting (g : list sym) : Prop := complete rs sr g sr TEoi.

  (** The decision in the state reached by [g] with lookahead [t]: shift if some item asks for [t];
      else accept at the end of the input when the start rule is complete; else reduce by the
      earliest rule that is complete with lookahead [t]; else there is none. *)
  Definition decides (p : lr_parser) (g : list sym) (t : term) (d : option (action nat)) : Prop :=
    match d with
    | Some (Shift s) => wants rs sr g (TM t) /\ state_of p (g ++ [TM t]) = Some s
    | Some Accept => ~ wants rs sr g (TM t) /\ t = TEoi /\ accepting g
    | Some (Reduce k) => ~ wants rs sr g (TM t) /\ ~ (t = TEoi /\ accepting g) /\
        k <> sr /\ complete rs sr g k t /\ (forall k', k' <> sr -> complete rs sr g k' t -> k <= k')
    | None => ~ wants rs sr g (TM t) /\ ~ (t = TEoi /\ accepting g) /\ (forall k, k <> sr -> ~ complete rs sr g k t)
    end.

  (** Set of items valid for [g], as the ordered set the warnings carry *)
  Definition items_of (g : list sym) (st : list item) : Prop :=
    sorted st /\ forall it, In it st <-> valid rs sr g it.

  (** The conflicts of the grammar with the lookahead [t], as they are to be reported. *)
  Definition conflict_at (w : warning) (t : term) : Prop :=
    exists g k, k <> sr /\ complete rs sr g k t /\
      match w with
      | WShiftReduce st sh k' => k' = k /\ wants rs sr g (TM t) /\ items_of g st /\ items_of (g ++ [TM t]) sh
      | WReduceReduce st k0 k' => k' = k /\ ~ wants rs sr g (TM t) /\ items_of g st /\ k0 <> k /\
          k0 <> sr /\ complete rs sr g k0 t /\ (forall k1, k1 <> sr -> complete rs sr g k1 t -> k0 <= k1)
      end.
  Definition conflict (w : warning) : Prop := exists t, conflict_at w t.

  (** No lookahead leaves a choice between a reduction and a shift or between two reductions. *)
  Definition conflict_free : Prop :=
    forall g k t, k <> sr -> complete rs sr g k t ->
      ~ wants rs sr g (TM t) /\ (forall k', k' <> sr -> complete rs sr g k' t -> k' = k).

  (** rule [k] has its error symbol next in the state reached by [g] *)
  Definition wants_error (g : list sym) (k : nat) : Prop :=
    exists p la r, valid rs sr g (mk_item k p la) /\ nth_error rs k = Some r /\ nth_error (r_rhs r) p = Some (TM TErr).

  Record canonical (p : lr_parser) : Prop := {
    can_rules : p_rules p = rs;
    (** the strings that have a state are the viable prefixes *)
    can_state : forall g, (exists s, state_of p g = Some s) <-> (exists it, valid rs sr g it);
    (** strings lead to the same state exactly when the same items are valid for them *)
    can_same : forall g g' s s', state_of p g = Some s -> state_of p g' = Some s' ->
                 (s = s' <-> forall it, valid rs sr g it <-> valid rs sr g' it);
    can_action : forall g s, state_of p g = Some s ->
                 exists row, aget eqb s (p_action p) = Some row /\ forall t, decides p g t (aget eqb t row);
    can_errors : forall g s, state_of p g = Some s ->
                 match aget eqb s (p_errors p) with
                 | Some ks => ks <> [] /\ forall k, In k ks <-> wants_error g k
                 | None => forall k, ~ wants_error g k
                 end;
    (** the tables have no rows for anything else *)
    can_reached : forall s row, aget eqb s (p_action p) = Some row -> exists g, state_of p g = Some s;
    can_goto_reached : forall s row, aget eqb s (p_goto p) = Some row -> exists g, state_of p g = Some s }.

  (** an item asks for a nonterminal without rules although something may follow *)
  Definition dangling : Prop :=
    exists g k p la r A t, valid rs sr g (mk_item k p la) /\ nth_error rs k = Some r /\ nth_error (r_rhs r) p = Some (NT A) /\
      (forall r', In r' rs -> r_lhs r' <> A) /\ firsts rs (skipn (S p) (r_rhs r) ++ [TM la]) t.
End Canonical.
