(** * Model of the whole macros [parser!] and [tokenizer!]: from the tokens written in a program to the generated parser and tokenizer.

    [parser!] (parser_generator/src/lib.rs:310-492) and [tokenizer!] (tokenizer_generator/src/lib.rs:75-142) read their input
    ([SynModel.v]) and go on with what was read ([GenModel.v], [TokModel.v]).  What the generated functions do when they are called
    is [generated] and the result of [tokenizer_macro].  The expressions in the input are the user's; [tval], [nval], [red] and
    [maker] say what they evaluate to. *)
From Coq Require Import List NArith String.
From Verif Require Import Lib Hir NfaModel DfaModel MinModel TokModel Grammar LrModel ParseModel GenModel SynModel.
Import ListNotations.

(** what becomes of the use of a macro: a message of [syn] (compile_error!, by [parse_macro_input!]), a panic while compiling, or code *)
Inductive mres (A : Type) := MOk (a : A) | MErr | MPanic | MFuel.
Arguments MOk {A}. Arguments MErr {A}. Arguments MPanic {A}. Arguments MFuel {A}.

Section Text.
  Variable keyword : string -> bool.
  Context {Vis Path Expr Typ Pat : Type}.
  Variables (p_vis : list ttree -> option (Vis * list ttree)) (p_path : list ttree -> option (Path * list ttree))
            (p_expr : list ttree -> option (Expr * list ttree)) (p_type : list ttree -> option (Typ * list ttree))
            (p_pat : list ttree -> option (Pat * list ttree)).
  Section Parser.
    Context {N T E : Type} (nix : N -> nat) (tix : T -> nat).
    Variables (tval : Expr -> T) (nval : Expr -> N) (red : Pat -> Expr -> reducer N T E).
    (** parser_generator/src/lib.rs:310-492: [parse_macro_input!] (312), the tables (313-351), and the parser that the generated
        function returns (353-491) *)
    Definition parser_use (e : lr_env) (g : gen_env) (fuel : nat) (ts : list ttree) : mres (parser N T E) :=
      match read_parser keyword p_vis p_path p_expr p_type p_pat ts with
      | POk si _ =>
          match (do kp <- expand e fuel (input_of tval nval red si); generated nix tix g (input_of tval nval red si) (fst kp) (snd kp)) with
          | Ok P => MOk P
          | Panic => MPanic
          | OutOfFuel => MFuel
          end
      | PErr => MErr
      | PPanic => MPanic
      | PFuel => MFuel
      end.
  End Parser.
  Section Tokenizer.
    Context {E T RErr : Type} (parse : string -> hir + RErr) (maker : Expr -> list N -> list T -> E).
    (** tokenizer_generator/src/lib.rs:75-142 *)
    Definition tokenizer_use (env : build_env) (order : list (nat * nat) -> list (nat * nat)) (fuel : nat) (ts : list ttree) : mres (tokenizer E T) :=
      match read_tokenizer keyword p_vis p_expr p_type ts with
      | POk ti _ =>
          match tokenizer_macro string RErr parse env order fuel (map (fun re => (fst re, maker (snd re))) (ti_rules ti)) with
          | BOk t => MOk t
          | BErr _ | BPanic => MPanic
          | BFuel => MFuel
          end
      | PErr => MErr
      | PPanic => MPanic
      | PFuel => MFuel
      end.
  End Tokenizer.
End Text.
