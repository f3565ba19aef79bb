(** * A reference semantics for [parse] (specification)

    An abstract parser that has no tables, no states, no token buffer and no iterator.  It keeps the
    symbols recognised so far and a position in the input, and looks only at the grammar: at the items
    that are valid for the symbols recognised so far.  It also says in full what error recovery does. *)
From Coq Require Import List Arith Bool Sorted.
From Verif Require Import Lib Grammar LrModel LrSpec ParseModel.
Import ListNotations.

Section Machine.
  Context {N T E : Type} (tix : T -> nat).
  (** the grammar, its start symbol, the reducers of its rules; [ss] is a symbol that does not occur *)
  Variables (rules : list rule) (start ss : nat) (gens : list (reducer N T E)).
  Variable w : list T.
  Let rs := augment rules start ss.
  Let sr := length rules.

  (** A recognised symbol: a nonterminal with its value and the position recorded for it; the token at a
      position; an error symbol that stands for the tokens [lo..=hi]. *)
  Inductive cell := CVal (A : nat) (v : N) (i : nat) | CTok (k i : nat) | CErr (lo hi : nat).
  Definition csym (c : cell) : sym := match c with CVal A _ _ => NT A | CTok k _ => TM (TSym k) | CErr _ _ => TM TErr end.

  (** The recognised symbols, leftmost first; the position of the next token; the number of tokens taken
      from the iterator so far; the error rules in use, in increasing order. *)
  Record conf := mk_conf { c_cells : list cell; c_pos : nat; c_far : nat; c_act : list nat }.
  Definition c_init : conf := mk_conf [] 0 0 [].
  Definition c_syms (c : conf) : list sym := map csym (c_cells c).

  (** the lookahead, and the number of tokens taken once it has been looked at *)
  Definition look (c : conf) : term := match nth_error w (c_pos c) with Some x => TSym (tix x) | None => TEoi end.
  Definition taken (c : conf) : nat := Nat.max (c_far c) (Nat.min (S (c_pos c)) (length w)).

  (** ** What to do *)
  Definition can_shift (g : list sym) (t : term) : Prop := wants rs sr g (TM t).
  Definition can_accept (g : list sym) (t : term) : Prop := t = TEoi /\ complete rs sr g sr TEoi.
  Definition can_reduce (g : list sym) (t : term) (k : nat) : Prop := k < sr /\ complete rs sr g k t.
  Definition do_accept g t : Prop := ~ can_shift g t /\ can_accept g t.
  Definition do_reduce g t k : Prop := ~ can_shift g t /\ ~ can_accept g t /\ can_reduce g t k /\ forall k', can_reduce g t k' -> k <= k'.
  Definition do_recover g t : Prop := ~ can_shift g t /\ ~ can_accept g t /\ forall k, ~ can_reduce g t k.

  (** ** Reductions *)
  (** the position of the first token or nonterminal *)
  Fixpoint first_pos (l : list cell) (d : nat) : nat :=
    match l with [] => d | CVal _ _ i :: _ => i | CTok _ i :: _ => i | CErr _ _ :: l' => first_pos l' d end.
  (** the position of the first error symbol *)
  Fixpoint first_err (l : list cell) (d : nat) : nat :=
    match l with [] => d | CErr lo _ :: _ => lo | _ :: l' => first_err l' d end.
  (** the argument for a symbol; there is none for an error symbol in an empty input *)
  Definition cell_arg (c : cell) : option (arg N T) :=
    match c with
    | CVal _ v _ => Some (NonTerminal v)
    | CTok _ i => match nth_error w i with Some x => Some (Terminal x) | None => None end
    | CErr lo hi => if hi <? length w then Some (ErrorSym (firstn (S hi - lo) (skipn lo w))) else None
    end.
  Fixpoint cell_args (l : list cell) : option (list (arg N T)) :=
    match l with
    | [] => Some []
    | c :: l' => match cell_arg c, cell_args l' with Some a, Some r => Some (a :: r) | _, _ => None end
    end.

  (** ** Recovery *)
  (** error rule [k] can be used behind the symbols [g], given the error rules in use *)
  Definition usable (act : list nat) (g : list sym) (k : nat) : Prop := wants_error rs sr g k /\ (act = [] \/ In k act).
  (** keeping the first [m] symbols allows it; at the end of the input nothing may be dropped *)
  Definition resumes (c : conf) (m : nat) : Prop :=
    m <= length (c_cells c) /\ (look c = TEoi -> m = length (c_cells c)) /\ exists k, usable (c_act c) (firstn m (c_syms c)) k.

  (** ** Steps and ends *)
  Inductive mstep (c : conf) : conf -> Prop :=
  | m_shift x : can_shift (c_syms c) (look c) -> nth_error w (c_pos c) = Some x ->
      mstep c (mk_conf (c_cells c ++ [CTok (tix x) (c_pos c)]) (S (c_pos c)) (taken c) (c_act c))
  | m_reduce k r l l' args f v : do_reduce (c_syms c) (look c) k -> nth_error rules k = Some r ->
      c_cells c = l ++ l' -> length l' = length (r_rhs r) -> cell_args l' = Some args -> nth_error gens k = Some f -> f args = GOk v ->
      mstep c (mk_conf (l ++ [CVal (r_lhs r) v (first_pos l' (taken c))]) (c_pos c) (taken c) (if existsb (Nat.eqb k) (c_act c) then [] else c_act c))
  (** keep as much as possible; the error symbol covers everything from the first dropped symbol to the
      lookahead; if symbols were dropped, the first token they stand for is not read again, but those
      behind it are; the rules in use are those that are still usable *)
  | m_recover m act : do_recover (c_syms c) (look c) -> resumes c m -> (forall m', resumes c m' -> m' <= m) ->
      StronglySorted Nat.lt act -> (forall k, In k act <-> usable (c_act c) (firstn m (c_syms c)) k) ->
      let i := if c_pos c <? length w then c_pos c else 0 in
      let dropped := skipn m (c_cells c) in
      mstep c (mk_conf (firstn m (c_cells c) ++ [CErr (Nat.min (first_pos dropped i) (first_err dropped i)) i])
                 (match dropped with [] => c_pos c | _ => S (Nat.min (first_pos dropped i) (c_pos c)) end) (taken c) act).

  (** the result and the tokens left in the iterator, or a panic *)
  Inductive mend (c : conf) : res (outcome N E * list T) -> Prop :=
  | e_accept A v i : do_accept (c_syms c) (look c) -> c_cells c = [CVal A v i] -> mend c (Ok (ROk v, skipn (taken c) w))
  | e_not_found : do_recover (c_syms c) (look c) -> (forall m, ~ resumes c m) -> mend c (Ok (RNotFound, skipn (taken c) w))
  | e_error k r l l' args f x : do_reduce (c_syms c) (look c) k -> nth_error rules k = Some r ->
      c_cells c = l ++ l' -> length l' = length (r_rhs r) -> cell_args l' = Some args -> nth_error gens k = Some f -> f args = GErr x ->
      mend c (Ok (RReducer x, skipn (taken c) w))
  | e_panic k r l l' args f : do_reduce (c_syms c) (look c) k -> nth_error rules k = Some r ->
      c_cells c = l ++ l' -> length l' = length (r_rhs r) -> cell_args l' = Some args -> nth_error gens k = Some f -> f args = GPanic -> mend c Panic
  | e_slice k r l l' : do_reduce (c_syms c) (look c) k -> nth_error rules k = Some r ->
      c_cells c = l ++ l' -> length l' = length (r_rhs r) -> cell_args l' = None -> mend c Panic.

  Inductive msteps : nat -> conf -> conf -> Prop :=
  | ms_refl c : msteps 0 c c
  | ms_step n c c1 c2 : mstep c c1 -> msteps n c1 c2 -> msteps (S n) c c2.

  (** the abstract parser stops with the result [r]; runs forever *)
  Definition mach_ends (r : res (outcome N E * list T)) : Prop := exists n c, msteps n c_init c /\ mend c r.
  Definition mach_forever : Prop := forall n, exists c, msteps n c_init c.
End Machine.
