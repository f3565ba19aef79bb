(** * Errors and their sources (specification) *)
From Coq Require Import List String.
From Verif Require Import Lib ParseModel ErrModel.
Import ListNotations.

(** what a report that follows [source] shows: the message of the error, that of its source, and so on *)
Fixpoint report {O} (o : O) (x : dyn_error O) : list (res string) :=
  format O (fun y o => de_fmt O y o) o x :: match de_source O x with Some y => report o y | None => [] end.

(** The error type of a parser whose reducers run another parser and pass on its error, and so on [n] times: the errors of the
    innermost reducers are of type [E]. *)
Fixpoint nested_error (n : nat) (E : Type) : Type := match n with 0 => E | S n => parse_error (nested_error n E) end.
Fixpoint nested_display {O E} (d : display O E) (n : nat) : display O (nested_error n E) :=
  match n with 0 => d | S n => pe_fmt O (nested_display d n) end.
Fixpoint nested_dyn {O E} (d : display O E) (dyn : E -> dyn_error O) (n : nat) : nested_error n E -> dyn_error O :=
  match n with 0 => dyn | S n => pe_dyn O (nested_display d n) (nested_dyn d dyn n) end.
(** an error passed on by all the parsers around *)
Fixpoint passed_on {E} (n : nat) (e : E) : nested_error n E := match n with 0 => e | S n => ErrorInReducer (passed_on n e) end.
