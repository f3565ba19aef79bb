(** * Model of [parse] with an iterator and reducers that share a state: parser/src/iter.rs 40-172 once more

    PullModel.v lets the iterator have a state, EffModel.v the reducers.  In a program the two can share what they
    read and write: a tokenizer that looks up names in a table which the reducers fill ("lexer feedback"), or a
    counter that both advance.  Then it matters when each of them runs.  Here everything that the iterator and the reducers can
    reach is a state of an arbitrary type [M].  The turns of the loop are those of EffModel.v and PullModel.v. *)
From Coq Require Import List Arith.
From Verif Require Import Lib Grammar LrModel ParseModel PullModel EffModel.
Import ListNotations.

Section Mix.
  Context {M N T E : Type} (tix : T -> nat).
  (** the [next] of the iterator; it may panic or not return *)
  Variable next : M -> res (option T) * M.

  (** the part of a turn behind the reading of the token, iter.rs 60-170 *)
  Definition mix_turn (P : eparser M N T E) (m : M) (s : pstate N T) : (M * pstate N T) + res (res (outcome N E) * M) :=
    match eff_step tix P (m, s) with
    | inl ms => inl ms
    | inr (Ok (Ok (o, _), m')) => inr (Ok (Ok o, m'))
    | inr (Ok (Panic, m')) => inr (Ok (Panic, m'))
    | inr _ => inr OutOfFuel
    end.
  (** one turn of the main loop, parser/src/iter.rs:51-170: the iterator is asked only when the buffer is empty, 52-59 *)
  Definition mix_step (P : eparser M N T E) (ms : M * pstate N T) : (M * pstate N T) + res (res (outcome N E) * M) :=
    let (m, s) := ms in
    match ps_buf s with
    | [] =>
        match next m with
        | (Ok (Some x), m') => mix_turn P m' (fill tix s x)
        | (Ok None, m') => mix_turn P m' (fill_end s)
        | (Panic, m') => inr (Ok (Panic, m'))
        | (OutOfFuel, _) => inr OutOfFuel
        end
    | _ :: _ => mix_turn P m s
    end.
  (** parser/src/iter.rs:45-50 *)
  Definition mix_init (P : eparser M N T E) (m : M) : M * pstate N T := (m, ps_init (parser_at P m) []).
  (** [parse]: the outcome or panic, and the state afterwards (parser/src/iter.rs:44-171) *)
  Definition mix_parse (P : eparser M N T E) (fuel : nat) (m : M) : res (res (outcome N E) * M) :=
    loop (mix_step P) fuel (mix_init P m).
End Mix.
