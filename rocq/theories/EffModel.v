(** * Model of [parse] with reducers that have effects: parser/src/iter.rs 40-172 once more

    The type of a reducer is [Box<dyn Fn(&mut [Symbol<&mut N, &T, &[T]>]) -> Result<N, E>>] (parser/src/syntax.rs
    61-66).  A [Fn] closure can still read and write what it has captured (a [Cell], a counter, a symbol
    table, a file).  ParseModel.v leaves this out.  Here all that the reducers can reach is a state of an arbitrary
    type [M]: a call gets the state it finds and leaves another behind, also when it returns an error or panics.

    Everything [parse] itself does is taken over from [parse_step]: one turn of the loop makes at most one
    reducer call (iter.rs 107), so a turn in the state [m] is a turn of the pure model with the reducers as they behave
    in [m].  Not modelled: tokens whose [EnumIndex] changes because of an effect. *)
From Coq Require Import List Arith.
From Verif Require Import Lib Grammar LrModel ParseModel.
Import ListNotations.

Section Eff.
  Context {M N T E : Type} (tix : T -> nat).

  (** a reducer with effects, syntax.rs 64 *)
  Definition ereducer : Type := M -> list (arg N T) -> gres N E * M.
  (** Models [Rule], syntax.rs 61-66. *)
  Record erule := mk_erule { er_rule : rule; er_gen : ereducer }.
  (** Models [Syntax], syntax.rs 13-17. *)
  Record esyntax := mk_esyntax { es_rules : list erule; es_start : nat }.
  (** Models [LR1Parser], parser/src/parser.rs 311-318. *)
  Record eparser := mk_ep { ep_tab : lr_parser; ep_gens : list ereducer }.

  (** Models [LR1Parser::new], parser.rs 321-390, as [lr1_new] does: it calls no reducer. *)
  Definition eff_new (e : lr_env) (fuel : nat) (s : esyntax) : res (eparser * list warning) :=
    do pw <- lr_new e fuel (map er_rule (es_rules s)) (es_start s);
    Ok (mk_ep (fst pw) (map er_gen (es_rules s) ++ [fun m _ => (GPanic, m)]), snd pw).

  (** the syntax and the parser as they are while the state is [m] (parser/src/syntax.rs:13-17) *)
  Definition syntax_at (s : esyntax) (m : M) : syntax N T E :=
    mk_syntax (map (fun r => mk_crule (er_rule r) (fun args => fst (er_gen r m args))) (es_rules s)) (es_start s).
  (** parser/src/parser.rs:311-318 *)
  Definition parser_at (P : eparser) (m : M) : parser N T E :=
    mk_lr1 (ep_tab P) (map (fun (g : ereducer) args => fst (g m args)) (ep_gens P)).

  (** a reducer call, iter.rs 107 *)
  Definition ecall (gs : list ereducer) (k : nat) (m : M) (args : list (arg N T)) : gres N E * M :=
    match nth_error gs k with Some g => g m args | None => (GPanic, m) end.

  (** one turn of the main loop, iter.rs 51-170; when the loop ends, the state is left behind, whatever the result *)
  Definition eff_step (P : eparser) (ms : M * pstate N T) : (M * pstate N T) + res (res (outcome N E * list T) * M) :=
    let (m, s) := ms in
    let m' := match step_call tix (parser_at P m) s with Some (k, args) => snd (ecall (ep_gens P) k m args) | None => m end in
    match parse_step tix (parser_at P m) s with
    | inl s' => inl (m', s')
    | inr r => inr (Ok (r, m'))
    end.
  (** parser/src/iter.rs:45-50 *)
  Definition eff_init (P : eparser) (m : M) (w : list T) : M * pstate N T := (m, ps_init (parser_at P m) w).
  (** [parse]: the outcome or panic, and the state afterwards (parser/src/iter.rs:44-171) *)
  Definition eff_parse (P : eparser) (fuel : nat) (m : M) (w : list T) : res (res (outcome N E * list T) * M) :=
    loop (eff_step P) fuel (eff_init P m w).
End Eff.
Arguments ereducer : clear implicits.
Arguments erule : clear implicits.
Arguments esyntax : clear implicits.
Arguments eparser : clear implicits.

(** reducers without effects (parser/src/syntax.rs:64) *)
Definition lift_gen {M N T E} (g : reducer N T E) : ereducer M N T E := fun m args => (g args, m).
(** parser/src/syntax.rs:13-17 *)
Definition lift_syntax {M N T E} (s : syntax N T E) : esyntax M N T E :=
  mk_esyntax (map (fun r => mk_erule (cr_rule r) (lift_gen (cr_gen r))) (sx_rules s)) (sx_start s).
(** parser/src/parser.rs:311-318 *)
Definition lift_parser {M N T E} (P : parser N T E) : eparser M N T E :=
  mk_ep (pr_tab P) (map lift_gen (pr_gens P)).
