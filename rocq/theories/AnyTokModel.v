(** * Model of TokenizeIterator with any implementation of the trait Tokenizer: tokenizer/src/tokenizer/iter.rs 4-80 once more

    The trait is public, so that a program can bring its own tokenizer: [DFATokenizer] is only one implementation.
    Here the tokenizer is arbitrary, and everything that the underlying iterator, the closure and the token makers can
    read and write is a state of an arbitrary type [W], which they may share. *)
From Coq Require Import List Arith NArith.
From Verif Require Import Lib NfaModel TokModel PullModel.
Import ListNotations.

Section AnyTok.
  Context {E T W : Type}.
  (** An implementation of the trait, tokenizer/src/tokenizer/iter.rs:4-11.  The methods take [&self]; they answer the same every time, and may panic.
      [im_make p] is the function that [enum_maker(p)] gives, called on a text and its items; it may have effects and may panic.
      Simplified: a method that depends on interior mutability is not covered. *)
  Record implementation := mk_impl {
    im_begin : res nat;
    im_accept : nat -> res (option nat);
    im_next : nat -> N -> res (option nat);
    im_make : nat -> list N -> list T -> W -> res E * W }.

  (** the [next] of the iterator, and the closure *)
  Variables (pull : W -> res (option T) * W) (mapf : T -> W -> res N * W).

  (** queue.pop_front().or_else(|| iter.next()), tokenizer/src/tokenizer/iter.rs:55 *)
  Definition apop (q : list T) (w : W) : res (option T) * (list T * W) :=
    match q with
    | x :: q' => (Ok (Some x), (q', w))
    | [] => let (r, w') := pull w in (r, ([], w'))
    end.

  (** the local variables of [next], tokenizer/src/tokenizer/iter.rs:48-54, and the queue and the state *)
  Record ascan := mk_ascan {
    as_node : nat; as_pat : option nat; as_len : nat; as_i : nat;
    as_items : list T; as_chars : list N; as_queue : list T; as_w : W }.
  (** the scan, as far as a panic leaves something of it: the queue and the state (tokenizer/src/tokenizer/iter.rs:47-79) *)
  Definition away (q : list T) (w : W) : ascan := mk_ascan 0 None 0 0 [] [] q w.

  (** one iteration of the scanning loop, tokenizer/src/tokenizer/iter.rs:55-69.  The loop ends with the scan, or with a panic. *)
  Definition ascan_step (I : implementation) (s : ascan) : ascan + res (res unit * ascan) :=
    match apop (as_queue s) (as_w s) with
    | (Ok None, (q, w)) => inr (Ok (Ok tt, mk_ascan (as_node s) (as_pat s) (as_len s) (as_i s) (as_items s) (as_chars s) q w))
    | (Ok (Some x), (q, w)) =>
        match mapf x w with
        | (Ok c, w) =>
            let i := S (as_i s) in
            let items := as_items s ++ [x] in
            let chars := as_chars s ++ [c] in
            match im_next I (as_node s) c with
            | Ok (Some n) =>
                match im_accept I n with
                | Ok (Some p) => inl (mk_ascan n (Some p) i i items chars q w)
                | Ok None => inl (mk_ascan n (as_pat s) (as_len s) i items chars q w)
                | Panic => inr (Ok (Panic, away q w))
                | OutOfFuel => inr OutOfFuel
                end
            | Ok None => inr (Ok (Ok tt, mk_ascan (as_node s) (as_pat s) (as_len s) i items chars q w))
            | Panic => inr (Ok (Panic, away q w))
            | OutOfFuel => inr OutOfFuel
            end
        | (Panic, w) => inr (Ok (Panic, away q w))
        | (OutOfFuel, _) => inr OutOfFuel
        end
    | (Panic, (q, w)) => inr (Ok (Panic, away q w))
    | (OutOfFuel, _) => inr OutOfFuel
    end.

  (** next, tokenizer/src/tokenizer/iter.rs:47-79, on the queue and the state: the result or panic, and both afterwards *)
  Definition anext (I : implementation) (fuel : nat) (st : list T * W) : res (option E) * (list T * W) :=
    let (q, w) := st in
    match im_begin I with
    | Ok b =>
        match im_accept I b with
        | Ok a =>
            match loop (ascan_step I) fuel (mk_ascan b a 0 0 [] [] q w) with
            | Ok (Ok _, sc) =>
                match as_pat sc with
                | Some p =>
                    let (ritems, q') := give_back (rev (as_items sc)) (as_len sc) (as_queue sc) in
                    let (r, w') := im_make I p (firstn (as_len sc) (as_chars sc)) (rev ritems) (as_w sc) in
                    (do e <- r; Ok (Some e), (q', w'))
                | None => (Ok None, (as_queue sc, as_w sc))
                end
            | Ok (Panic, sc) => (Panic, (as_queue sc, as_w sc))
            | _ => (OutOfFuel, st)
            end
        | Panic => (Panic, st)
        | OutOfFuel => (OutOfFuel, st)
        end
    | Panic => (Panic, st)
    | OutOfFuel => (OutOfFuel, st)
    end.
End AnyTok.
Arguments implementation : clear implicits.
Arguments ascan : clear implicits.

(** ** DFATokenizer as an implementation, tokenizer/src/tokenizer.rs 19-34, and 36-51 for a reference to one *)
Definition dfa_impl {E T W} (t : tokenizer E T) : implementation E T W :=
  mk_impl (Ok (tk_begin t)) (fun n => Ok (accept_index t n)) (next_node t)
    (fun p cs xs w => (do m <- of_opt (nth_error (tk_makers t) p); Ok (m cs xs), w)).
(** the iterator and the closure of PullModel.v, with their states side by side (the iterator `iter` of tokenizer/src/tokenizer/iter.rs:19) *)
Definition pull_fst {S T M} (pull : S -> res (option T * S)) (w : S * M) : res (option T) * (S * M) :=
  match pull (fst w) with Ok (x, s) => (Ok x, (s, snd w)) | Panic => (Panic, w) | OutOfFuel => (OutOfFuel, w) end.
(** the closure `map` of tokenizer/src/tokenizer/iter.rs:20 *)
Definition map_snd {S T M} (mapf : M -> T -> res (N * M)) (x : T) (w : S * M) : res N * (S * M) :=
  match mapf (snd w) x with Ok (c, m) => (Ok c, (fst w, m)) | Panic => (Panic, w) | OutOfFuel => (OutOfFuel, w) end.

(** ** A list as the iterator (such as [str::chars]), beside the state of the makers, and a closure without effects (tokenizer/src/tokenizer/iter.rs:19) *)
Definition list_fst {T X} (w : list T * X) : res (option T) * (list T * X) :=
  match fst w with [] => (Ok None, w) | x :: l => (Ok (Some x), (l, snd w)) end.
(** tokenizer/src/tokenizer/iter.rs:32-37 *)
Definition pure_chars {T X} (f : T -> N) (x : T) (w : X) : res N * X := (Ok (f x), w).
(** an iterator in the form of PullModel.v (tokenizer/src/tokenizer/iter.rs:19) *)
Definition as_pull {S A} (next : S -> res (option A) * S) (s : S) : res (option A * S) :=
  let (r, s') := next s in do o <- r; Ok (o, s').
