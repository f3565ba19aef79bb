(** * From text to value with any outcome (specification) *)
From Coq Require Import List NArith.
From Verif Require Import Lib DfaModel TokModel ParseModel PullModel PullSpec.
Import ListNotations.

(** text.tokenize(tokenizer).parse(parser) has the outcome [o]; [pull] is the [next] of the iterator over the text, [src] its state *)
Definition answers {K T S V Err} (tix : K -> nat) (pull : S -> res (option T * S)) (f : T -> N) (t : tokenizer K T) (Pr : parser V K Err) (src : S) (o : outcome V Err) : Prop :=
  exists F, forall fuel, F <= fuel -> exists src', parse_pull tix (gnext pull (pure_map f) t fuel) Pr fuel (gtokenize src tt) = Ok (o, src').

(** the tokens that the token makers give for the pieces of the text *)
Definition made_tokens {K T P} (f : T -> N) (patterns : list (P * (list N -> list T -> K))) (ks : list K) (toks : list (nat * list T)) : Prop :=
  Forall2 (fun k x => exists p m, nth_error patterns (fst x) = Some (p, m) /\ k = m (map f (snd x)) (snd x)) ks toks.
