(** * Model of parser/src/syntax.rs, parser/src/lib.rs and parser/src/iter.rs.

    The token type [T] and the value type [N] of the user are arbitrary types; [EnumIndex::enum_index]
    of a token is an arbitrary function [tix : T -> nat].  A reducer is a pure function from its
    argument list to a value, a user error or a panic: a reducer gets [&mut] access to the values
    of its nonterminal arguments, but these have just been taken off the stack and are dropped after
    the call, so only its result matters; effects a reducer has outside its arguments are
    modelled in EffModel.v.  [usize] is [nat]. *)
From Coq Require Import List Arith Lia Bool.
From Verif Require Import Lib Grammar LrModel.
Import ListNotations.

(** Models [Symbol], parser/src/lib.rs 14-19. *)
Inductive symbol (N T E : Type) := NonTerminal (n : N) | Terminal (t : T) | ErrorSym (e : E).
Arguments NonTerminal {N T E} n.
Arguments Terminal {N T E} t.
Arguments ErrorSym {N T E} e.

(** What a reducer does: return a value, return a user error, panic. (parser/src/syntax.rs:64) *)
Inductive gres (N E : Type) := GOk (v : N) | GErr (e : E) | GPanic.
Arguments GOk {N E} v.
Arguments GErr {N E} e.
Arguments GPanic {N E}.

Section Syntax.
  Context {N T E : Type}.

  (** The argument list of a reducer: [&mut [Symbol<&mut N, &T, &[T]>]]. (parser/src/syntax.rs:64) *)
  Definition arg : Type := symbol N T (list T).
  (** parser/src/syntax.rs:64 *)
  Definition reducer : Type := list arg -> gres N E.

  (** Models [Rule], syntax.rs 61-66. *)
  Record crule := mk_crule { cr_rule : rule; cr_gen : reducer }.
  (** Models [Syntax], syntax.rs 13-17. *)
  Record syntax := mk_syntax { sx_rules : list crule; sx_start : nat }.

  (** syntax.rs 145-149 *)
  Definition to_sym (s : symbol nat nat unit) : sym :=
    match s with NonTerminal n => NT n | Terminal t => TM (TSym t) | ErrorSym _ => TM TErr end.
  (** Models [Rule::new_raw], syntax.rs 140-154. *)
  Definition rule_new_raw (start : nat) (l : list (symbol nat nat unit)) (g : reducer) : crule :=
    mk_crule (mk_rule start (map to_sym l)) g.
  (** Models [Rule::new], syntax.rs 124-138; [nix], [tix] are the [enum_index] of the two types. *)
  Definition rule_new (nix : N -> nat) (tix : T -> nat) (start : N) (l : list (symbol N T unit)) (g : reducer) : crule :=
    mk_crule (mk_rule (nix start) (map (fun s => match s with
      | NonTerminal n => NT (nix n) | Terminal t => TM (TSym (tix t)) | ErrorSym _ => TM TErr end) l)) g.

  (** Models [RuleBuilder], syntax.rs 68-73 and 156-198. *)
  Record rule_builder := mk_rb { rb_lhs : nat; rb_syms : list sym }.
  (** parser/src/syntax.rs:156-162 *)
  Definition rb_new (nix : N -> nat) (example : N) : rule_builder := mk_rb (nix example) [].
  (** parser/src/syntax.rs:170-173 *)
  Definition rb_non_terminal (nix : N -> nat) (b : rule_builder) (example : N) : rule_builder :=
    mk_rb (rb_lhs b) (rb_syms b ++ [NT (nix example)]).
  (** parser/src/syntax.rs:180-183 *)
  Definition rb_terminal (tix : T -> nat) (b : rule_builder) (example : T) : rule_builder :=
    mk_rb (rb_lhs b) (rb_syms b ++ [TM (TSym (tix example))]).
  (** parser/src/syntax.rs:185-188 *)
  Definition rb_error (b : rule_builder) : rule_builder := mk_rb (rb_lhs b) (rb_syms b ++ [TM TErr]).
  (** parser/src/syntax.rs:190-197 *)
  Definition rb_build (b : rule_builder) (g : reducer) : crule := mk_crule (mk_rule (rb_lhs b) (rb_syms b)) g.

  (** Models [SyntaxBuilder], syntax.rs 29-59. *)
  Definition sb_new : list crule := [].
  (** parser/src/syntax.rs:45-48 *)
  Definition sb_rule (b : list crule) (r : crule) : list crule := b ++ [r].
  (** parser/src/syntax.rs:50-53 *)
  Definition sb_build (nix : N -> nat) (b : list crule) (start : N) : syntax := mk_syntax b (nix start).
  (** parser/src/syntax.rs:55-58 *)
  Definition sb_build_raw (b : list crule) (start : nat) : syntax := mk_syntax b start.

  (** Models [LR1Parser], parser/src/parser.rs 311-318: the tables and the reducers of its rules. *)
  Record parser := mk_lr1 { pr_tab : lr_parser; pr_gens : list reducer }.

  (** Models [LR1Parser::new], parser.rs 321-390; the rule added in 335 has the reducer
      [|_| unimplemented!()]. *)
  Definition lr1_new (e : lr_env) (fuel : nat) (s : syntax) : res (parser * list warning) :=
    do pw <- lr_new e fuel (map cr_rule (sx_rules s)) (sx_start s);
    Ok (mk_lr1 (fst pw) (map cr_gen (sx_rules s) ++ [fun _ => GPanic]), snd pw).
End Syntax.
Arguments arg : clear implicits.
Arguments reducer : clear implicits.
Arguments crule : clear implicits.
Arguments syntax : clear implicits.
Arguments parser : clear implicits.

(** ** parse, iter.rs 40-172 *)
Section Parse.
  Context {N T E : Type} (tix : T -> nat).

  (** A stack symbol, [SymbolInternal<(N, usize), (TerminalSymbol<usize, RangeInclusive<usize>>, usize)>]:
      the index stored with an error symbol (163: always 0) and with the end of input is never read
      and is left out. (parser/src/iter.rs:49, 68-69) *)
  Inductive entry := ENon (v : N) (i : nat) | ETok (t : nat) (i : nat) | EErr (lo hi : nat) | EEoi.

  (** The local variables of [parse], parser/src/iter.rs:45-50.  The stack is kept with its top first. *)
  Record pstate := mk_ps {
    ps_iter : list T;
    ps_state : nat;
    ps_syms : list T;
    ps_buf : list (term * nat);
    ps_stack : list (nat * entry);
    ps_rec : list nat }.

  (** The outcome of [parse]; [ParseError], parser/src/iter.rs:12-16. *)
  Inductive outcome := ROk (v : N) | RNotFound | RReducer (e : E).

  (** parser/src/iter.rs:52-59 *)
  Definition ps_read (s : pstate) : pstate :=
    match ps_buf s with
    | [] => match ps_iter s with
            | x :: it => mk_ps it (ps_state s) (ps_syms s ++ [x]) [(TSym (tix x), length (ps_syms s))] (ps_stack s) (ps_rec s)
            | [] => mk_ps [] (ps_state s) (ps_syms s) [(TEoi, 0)] (ps_stack s) (ps_rec s)
            end
    | _ => s
    end.

  (** parser/src/iter.rs:75-82: the position of the first nonterminal or token among the symbols (leftmost first) *)
  Fixpoint first_index (l : list entry) (d : nat) : nat :=
    match l with
    | [] => d
    | ENon _ i :: _ => i
    | ETok _ i :: _ => i
    | _ :: l' => first_index l' d
    end.

  (** [&all_symbols[lo..=hi]]: panics unless [lo <= hi + 1] and [hi < len] (parser/src/iter.rs:97) *)
  Definition slice (l : list T) (lo hi : nat) : res (list T) :=
    if andb (lo <=? S hi) (hi <? length l) then Ok (firstn (S hi - lo) (skipn lo l)) else Panic.

  (** parser/src/iter.rs:83-106: the argument list.  [symbols] is the rest of the token vector that has not been handed
      out, [base] the position of its first token; [*i - symbols_index] and the slice panic when
      the position is before [base] or behind the end. *)
  Fixpoint reduce_args (all : list T) (base : nat) (l : list entry) : res (list (arg N T)) :=
    match l with
    | [] => Ok []
    | ENon v _ :: l' => do r <- reduce_args all base l'; Ok (NonTerminal v :: r)
    | ETok _ i :: l' =>
        if i <? base then Panic
        else do x <- of_opt (nth_error all i); do r <- reduce_args all (S i) l'; Ok (Terminal x :: r)
    | EErr lo hi :: l' => do x <- slice all lo hi; do r <- reduce_args all base l'; Ok (ErrorSym x :: r)
    | EEoi :: _ => Panic
    end.

  (** The search for a state that can start an error rule.  The result is the state, the
      stack left, the new recovery set, whether the stack was popped, [head] and [error_head] (parser/src/iter.rs:122-155). *)
  Definition disjoint_nat (a b : list nat) : bool := forallb (fun x => negb (existsb (Nat.eqb x) b)) a.
  (** parser/src/iter.rs:135 *)
  Definition inter_nat (a b : list nat) : list nat := filter (fun x => existsb (Nat.eqb x) b) a.
  (** parser/src/iter.rs:122-155 *)
  Fixpoint recover (p : lr_parser) (eoi : bool) (rc : list nat) (back : bool) (cur head ehead : nat)
      (st : list (nat * entry)) : option (nat * list (nat * entry) * list nat * bool * nat * nat) :=
    let here :=
      if negb eoi || negb back then
        match aget eqb cur (p_errors p) with
        | Some ers =>
            match rc with
            | [] => Some ers
            | _ => if disjoint_nat rc ers then None else Some (inter_nat rc ers)
            end
        | None => None
        end
      else None in
    match here with
    | Some rc' => Some (cur, st, rc', back, head, ehead)
    | None =>
        match st with
        | [] => None
        | (s, ENon _ i) :: st' => recover p eoi rc true s i ehead st'
        | (s, ETok _ i) :: st' => recover p eoi rc true s i ehead st'
        | (s, EErr lo _) :: st' => recover p eoi rc true s head lo st'
        | (s, EEoi) :: st' => recover p eoi rc true s head ehead st'
        end
    end.

  (** parser/src/iter.rs:61 *)
  Definition act (p : lr_parser) (s : nat) (t : term) : res (option (action nat)) :=
    do row <- of_opt (aget eqb s (p_action p)); Ok (aget eqb t row).

  (** The tokens put back; [symbols[index]] panics when absent (parser/src/iter.rs:156-158) *)
  Definition put_back (syms : list T) (head tail : nat) : res (list (term * nat)) :=
    mapM (fun i => do x <- of_opt (nth_error syms i); Ok (TSym (tix x), i)) (seq head (tail - head)).

  (** the end of the loop, parser/src/iter.rs:107, 116, 153 *)
  Definition stop {A} (r : res A) : pstate + res A := inr r.

  (** one turn of the main loop, parser/src/iter.rs:51-170 *)
  Definition parse_step (P : parser N T E) (s0 : pstate) : pstate + res (outcome * list T) :=
    let p := pr_tab P in
    let s := ps_read s0 in
    match ps_buf s with
    | [] => inr Panic
    | (t, idx) :: buf =>
        match act p (ps_state s) t with
        | Panic => inr Panic
        | OutOfFuel => inr OutOfFuel
        | Ok (Some (Shift q)) =>                                            (* 62-72 *)
            match t with
            | TErr => inr Panic
            | TSym k => inl (mk_ps (ps_iter s) q (ps_syms s) buf ((ps_state s, ETok k idx) :: ps_stack s) (ps_rec s))
            | TEoi => inl (mk_ps (ps_iter s) q (ps_syms s) buf ((ps_state s, EEoi) :: ps_stack s) (ps_rec s))
            end
        | Ok (Some (Reduce k)) =>                                           (* 73-113 *)
            match nth_error (p_rules p) k with
            | None => inr Panic
            | Some r =>
                let n := length (r_rhs r) in
                if length (ps_stack s) <? n then inr Panic
                else
                  let popped := rev (firstn n (ps_stack s)) in
                  let rest := skipn n (ps_stack s) in
                  let es := map snd popped in
                  let fi := first_index es (length (ps_syms s)) in
                  match reduce_args (ps_syms s) 0 es with
                  | Ok args =>
                      let cur := match popped with [] => ps_state s | (q, _) :: _ => q end in
                      match nth_error (pr_gens P) k with
                      | None => inr Panic
                      | Some g =>
                          match g args with
                          | GPanic => inr Panic
                          | GErr e => inr (Ok (RReducer e, ps_iter s))
                          | GOk v =>
                              match aget eqb cur (p_goto p) with
                              | None => inr Panic
                              | Some row =>
                                  match aget eqb (r_lhs r) row with
                                  | None => inr Panic
                                  | Some q =>
                                      inl (mk_ps (ps_iter s) q (ps_syms s) (ps_buf s) ((cur, ENon v fi) :: rest)
                                             (if existsb (Nat.eqb k) (ps_rec s) then [] else ps_rec s))
                                  end
                              end
                          end
                      end
                  | Panic => inr Panic
                  | OutOfFuel => inr OutOfFuel
                  end
            end
        | Ok (Some Accept) =>                                               (* 114-120 *)
            match ps_stack s with
            | (_, ENon v _) :: _ => inr (Ok (ROk v, ps_iter s))
            | _ => inr Panic
            end
        | Ok None =>                                                        (* 121-168 *)
            let eoi := match t with TEoi => true | _ => false end in
            match recover p eoi (ps_rec s) false (ps_state s) idx idx (ps_stack s) with
            | None => inr (Ok (RNotFound, ps_iter s))
            | Some (cur, st, rc, back, head, ehead) =>
                match put_back (ps_syms s) head idx with
                | Ok pb =>
                    let buf' := pb ++ ps_buf s in
                    let buf'' := if back then tl buf' else buf' in
                    match act p cur TErr with
                    | Ok (Some (Shift q)) =>
                        inl (mk_ps (ps_iter s) q (ps_syms s) buf'' ((cur, EErr (Nat.min head ehead) idx) :: st) rc)
                    | Ok _ => inr Panic
                    | Panic => inr Panic
                    | OutOfFuel => inr OutOfFuel
                    end
                | Panic => inr Panic
                | OutOfFuel => inr OutOfFuel
                end
            end
        end
    end.

  (** The reducer call of one turn, if there is one: which rule's, with which arguments.  This is a view
      of [parse_step] (parser/src/iter.rs:73-107), tied to it by [step_call_adequate] in ParseTop.v. *)
  Definition step_call (P : parser N T E) (s0 : pstate) : option (nat * list (arg N T)) :=
    let p := pr_tab P in
    let s := ps_read s0 in
    match ps_buf s with
    | [] => None
    | (t, _) :: _ =>
        match act p (ps_state s) t with
        | Ok (Some (Reduce k)) =>
            match nth_error (p_rules p) k with
            | None => None
            | Some r =>
                let n := length (r_rhs r) in
                if length (ps_stack s) <? n then None
                else match reduce_args (ps_syms s) 0 (map snd (rev (firstn n (ps_stack s)))) with
                     | Ok args => Some (k, args)
                     | _ => None
                     end
            end
        | _ => None
        end
    end.

  (** parser/src/iter.rs:45-50 *)
  Definition ps_init (P : parser N T E) (input : list T) : pstate :=
    mk_ps input (p_start (pr_tab P)) [] [] [] [].
  (** [parse]; with the outcome comes what has not been taken from the iterator. (parser/src/iter.rs:44-171) *)
  Definition parse_full (P : parser N T E) (fuel : nat) (input : list T) : res (outcome * list T) :=
    loop (parse_step P) fuel (ps_init P input).
  (** parser/src/iter.rs:44-171 *)
  Definition parse (P : parser N T E) (fuel : nat) (input : list T) : res outcome :=
    do r <- parse_full P fuel input; Ok (fst r).
End Parse.
Arguments entry : clear implicits.
Arguments pstate : clear implicits.
Arguments outcome : clear implicits.
