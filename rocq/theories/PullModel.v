(** * [tokenize_with] and [parse] on arbitrary iterators

    TokModel.v and ParseModel.v describe an iterator by the list of what it will deliver.  Here an
    iterator is a state with a function [pull], its [next]: it may never end, it may deliver items again
    after it has returned [None], it may panic, and a call of it may not return ([OutOfFuel]). *)
From Coq Require Import List Arith NArith.
From Verif Require Import Lib Hir TokModel Grammar LrModel ParseModel ExModel.
Import ListNotations.

(** ** parse, parser/src/iter.rs 40-172 *)
Section Parse.
  Context {V T E S : Type} (tix : T -> nat) (pull : S -> res (option T * S)).

  (** parser/src/iter.rs:52-59: a token [x] from the iterator, or its end, goes into the empty buffer.  The component
      [ps_iter] of the states is not used here: it is always empty. *)
  Definition fill (s : pstate V T) (x : T) : pstate V T :=
    mk_ps [] (ps_state s) (ps_syms s ++ [x]) [(TSym (tix x), length (ps_syms s))] (ps_stack s) (ps_rec s).
  (** parser/src/iter.rs:56-58 *)
  Definition fill_end (s : pstate V T) : pstate V T :=
    mk_ps [] (ps_state s) (ps_syms s) [(TEoi, 0)] (ps_stack s) (ps_rec s).

  (** the iterator beside the other variables, parser/src/iter.rs:45-50 *)
  Definition beside {A} (src : S) (r : pstate V T + res (outcome V E * A)) : (S * pstate V T) + res (outcome V E * S) :=
    match r with
    | inl s' => inl (src, s')
    | inr (Ok (o, _)) => inr (Ok (o, src))
    | inr Panic => inr Panic
    | inr OutOfFuel => inr OutOfFuel
    end.

  (** one turn of the main loop, parser/src/iter.rs:51-170: the iterator is asked only when the buffer is empty; the rest
      of the turn (60-170) is that of ParseModel.v with a buffer that is not empty *)
  Definition pull_step (P : parser V T E) (c : S * pstate V T) : (S * pstate V T) + res (outcome V E * S) :=
    let (src, s) := c in
    match ps_buf s with
    | [] =>
        match pull src with
        | Ok (Some x, src') => beside src' (parse_step tix P (fill s x))
        | Ok (None, src') => beside src' (parse_step tix P (fill_end s))
        | Panic => inr Panic
        | OutOfFuel => inr OutOfFuel
        end
    | _ :: _ => beside src (parse_step tix P s)
    end.
  (** the result of [parse] on the iterator in the state [src], and the state it is left in (parser/src/iter.rs:44-171) *)
  Definition parse_pull (P : parser V T E) (fuel : nat) (src : S) : res (outcome V E * S) :=
    loop (pull_step P) fuel (src, ps_init P []).
End Parse.

(** ** TokenizeIterator, tokenizer/src/tokenizer/iter.rs 13-80 *)
Section Tokenize.
  Context {E T S M : Type}.
  (** the [next] of the iterator, and the closure: [FnMut(&I::Item) -> char] with the state [M] *)
  Variables (pull : S -> res (option T * S)) (mapf : M -> T -> res (N * M)).

  (** tokenizer/src/tokenizer/iter.rs:18-22, without the tokenizer *)
  Record giter := mk_giter { gi_src : S; gi_queue : list T; gi_map : M }.

  (** queue.pop_front().or_else(|| iter.next()), tokenizer/src/tokenizer/iter.rs:55 *)
  Definition gpop (g : giter) : res (option T * giter) :=
    match gi_queue g with
    | x :: q => Ok (Some x, mk_giter (gi_src g) q (gi_map g))
    | [] => do r <- pull (gi_src g); Ok (fst r, mk_giter (snd r) [] (gi_map g))
    end.

  (** the local variables of [next], tokenizer/src/tokenizer/iter.rs:48-54 *)
  Record gscan := mk_gscan {
    gs_node : nat; gs_pat : option nat; gs_len : nat; gs_i : nat;
    gs_items : list T; gs_chars : list N; gs_src : giter }.

  (** one iteration of the scanning loop, tokenizer/src/tokenizer/iter.rs:55-69 *)
  Definition gscan_step (t : tokenizer E T) (s : gscan) : gscan + res gscan :=
    match gpop (gs_src s) with
    | Ok (None, src) => inr (Ok (mk_gscan (gs_node s) (gs_pat s) (gs_len s) (gs_i s) (gs_items s) (gs_chars s) src))
    | Ok (Some x, src) =>
        match mapf (gi_map src) x with
        | Ok (c, m) =>
            let src := mk_giter (gi_src src) (gi_queue src) m in
            let i := Datatypes.S (gs_i s) in
            let items := gs_items s ++ [x] in
            let chars := gs_chars s ++ [c] in
            match next_node t (gs_node s) c with
            | Ok (Some n) =>
                match accept_index t n with
                | Some p => inl (mk_gscan n (Some p) i i items chars src)
                | None => inl (mk_gscan n (gs_pat s) (gs_len s) i items chars src)
                end
            | Ok None => inr (Ok (mk_gscan (gs_node s) (gs_pat s) (gs_len s) i items chars src))
            | Panic => inr Panic
            | OutOfFuel => inr OutOfFuel
            end
        | Panic => inr Panic
        | OutOfFuel => inr OutOfFuel
        end
    | Panic => inr Panic
    | OutOfFuel => inr OutOfFuel
    end.

  (** next, tokenizer/src/tokenizer/iter.rs:47-79 *)
  Definition gnext (t : tokenizer E T) (fuel : nat) (g : giter) : res (option E * giter) :=
    do sc <- loop (gscan_step t) fuel (mk_gscan (tk_begin t) (accept_index t (tk_begin t)) 0 0 [] [] g);
    let src := gs_src sc in
    match gs_pat sc with
    | Some p =>
        let (ritems, q) := give_back (rev (gs_items sc)) (gs_len sc) (gi_queue src) in
        do f <- of_opt (nth_error (tk_makers t) p);
        Ok (Some (f (firstn (gs_len sc) (gs_chars sc)) (rev ritems)), mk_giter (gi_src src) q (gi_map src))
    | None => Ok (None, src)
    end.

  (** tokenize_with, tokenizer/src/tokenizer/iter.rs:39-41 *)
  Definition gtokenize (src : S) (m : M) : giter := mk_giter src [] m.
End Tokenize.
Arguments giter : clear implicits.
Arguments gscan : clear implicits.

(** [tokenize], tokenizer/src/tokenizer/iter.rs:32-37: the closure is [char::clone] *)
Definition clone_char (m : unit) (c : N) : res (N * unit) := Ok (c, tt).
(** a closure without effects (tokenizer/src/tokenizer/iter.rs:20) *)
Definition pure_map {T} (f : T -> N) (m : unit) (x : T) : res (N * unit) := Ok (f x, tt).

(** an iterator over a list, such as [Vec::into_iter] or [str::chars] (example/src/main.rs:89) *)
Definition pull_list {T} (l : list T) : res (option T * list T) :=
  match l with [] => Ok (None, []) | x :: l' => Ok (Some x, l') end.

(** [Iterator::flatten] over an iterator of options (standard library): [next] skips the [None]s.  An item is
    what a maker does: it returns an option or panics.  The library's adaptor also remembers
    that its iterator has ended, which makes no difference for a caller that does not ask again. *)
Section Flatten.
  Context {A S : Type} (pull : S -> res (option (res (option A)) * S)).
  (** example/src/main.rs:89 *)
  Definition flat_step (s : S) : S + res (option A * S) :=
    match pull s with
    | Ok (Some (Ok (Some x)), s') => inr (Ok (Some x, s'))
    | Ok (Some (Ok None), s') => inl s'
    | Ok (Some Panic, _) => inr Panic
    | Ok (Some OutOfFuel, _) => inr OutOfFuel
    | Ok (None, s') => inr (Ok (None, s'))
    | Panic => inr Panic
    | OutOfFuel => inr OutOfFuel
    end.
  (** example/src/main.rs:89 *)
  Definition pull_flat (fuel : nat) (s : S) : res (option A * S) := loop flat_step fuel s.
End Flatten.

(** One turn of the main loop of the example, example/src/main.rs 86-99, with the iterators as lazy as they
    are: [input.chars().tokenize(&tokenizer).flatten().parse(&parser)] *)
Section Calc.
  Context {F : Type} {Err : Type}.
  (** example/src/main.rs:89 *)
  Definition pull_tokens (t : calc_tokenizer) (fuel : nat) : giter N (list N) unit -> res (option (token F) * giter N (list N) unit) :=
    pull_flat (gnext pull_list clone_char t fuel) fuel.
  (** example/src/main.rs:87-98 *)
  Definition calc_line_lazy (t : calc_tokenizer) (P : calc_parser (F := F) (Err := Err)) (fuel : nat) (input : list N) : res (printed (F := F) (Err := Err)) :=
    do r <- parse_pull token_index (pull_tokens t fuel) P fuel (gtokenize input tt);
    match fst r with
    | ROk (Sum (Some n)) => Ok (PNumber n)
    | RNotFound => Ok (PError RNotFound)
    | RReducer e => Ok (PError (RReducer e))
    | _ => Panic (* unreachable!() *)
    end.
  (** example/src/main.rs:86-99 *)
  Fixpoint calc_loop_lazy (t : calc_tokenizer) (P : calc_parser (F := F) (Err := Err)) (fuel n : nat) (lines : list (list N)) : res (list (printed (F := F) (Err := Err))) :=
    match n with
    | 0 => Ok []
    | Datatypes.S n' => do x <- calc_line_lazy t P fuel (hd [] lines); do l <- calc_loop_lazy t P fuel n' (tl lines); Ok (x :: l)
    end.
End Calc.
