(** * Model of example/src/main.rs: a calculator made from a tokenizer and a parser.

    Floating point numbers are an arbitrary type [F] with arbitrary operations ([f64] is not modelled);
    [str::parse::<f64>] is an arbitrary function that may fail.  The regex parser is a parameter, as in
    TokModel.v. *)
From Coq Require Import List NArith Ascii String.
From Verif Require Import Lib Hir TokModel Grammar LrModel ParseModel.
Import ListNotations.
Local Open Scope list_scope.

(** what the program uses of [f64] (example/src/main.rs:29, 44-82) *)
Record floats (F : Type) := mk_floats {
  fzero : F;
  fadd : F -> F -> F; fsub : F -> F -> F; fmul : F -> F -> F; fdiv : F -> F -> F;
  fneg : F -> F; fsqrt : F -> F;
  fparse : list N -> option F (* str::parse, None for Err *)
}.
Arguments fzero {F}. Arguments fadd {F}. Arguments fsub {F}. Arguments fmul {F}. Arguments fdiv {F}.
Arguments fneg {F}. Arguments fsqrt {F}. Arguments fparse {F}.

(** enum Token, main.rs 10-19 *)
Inductive token (F : Type) := Number (n : F) | Add | Sub | Mul | Div | Bracket | CloseBracket | Sqrt.
Arguments Number {F} n. Arguments Add {F}. Arguments Sub {F}. Arguments Mul {F}. Arguments Div {F}.
Arguments Bracket {F}. Arguments CloseBracket {F}. Arguments Sqrt {F}.
(** enum ParseResult, main.rs 21-26 *)
Inductive value (F : Type) := Sum (n : option F) | Product (n : option F) | Block (n : option F).
Arguments Sum {F} n. Arguments Product {F} n. Arguments Block {F} n.

Section Calc.
  Context {F : Type} (fo : floats F).

  (** #[derive(EnumIndex)]: the number of the variant (example/src/main.rs:9-19) *)
  Definition token_index (t : token F) : nat :=
    match t with Number _ => 0 | Add => 1 | Sub => 2 | Mul => 3 | Div => 4 | Bracket => 5 | CloseBracket => 6 | Sqrt => 7 end.
  (** example/src/main.rs:21-26 *)
  Definition value_index (v : value F) : nat := match v with Sum _ => 0 | Product _ => 1 | Block _ => 2 end.

  (** ** The tokenizer, main.rs 28-39.  A maker gets the text and the items and returns an
      [Option<Token>]; [unwrap] may panic. *)
  Definition maker := list N -> list N -> res (option (token F)).
  (** example/src/main.rs:28-37 *)
  Definition calc_patterns : list (string * maker) := [
    ("([0-9]+|[0-9]+\.[0-9]*|[0-9]*\.[0-9]+)([eE][\+\-]?[0-9]+)?"%string,
      fun s _ => match fparse fo s with Some n => Ok (Some (Number n)) | None => Panic end);
    ("\+"%string, fun _ _ => Ok (Some Add));
    ("\-"%string, fun _ _ => Ok (Some Sub));
    ("\*"%string, fun _ _ => Ok (Some Mul));
    ("/"%string, fun _ _ => Ok (Some Div));
    ("\("%string, fun _ _ => Ok (Some Bracket));
    ("\)"%string, fun _ _ => Ok (Some CloseBracket));
    ("sqrt"%string, fun _ _ => Ok (Some Sqrt));
    (String.append ".|" (String (ascii_of_nat 10) EmptyString), fun _ _ => Ok None)
  ].
  (** example/src/main.rs:28 *)
  Definition calc_tokenizer := tokenizer (res (option (token F))) N.
  (** example/src/main.rs:28-39 *)
  Definition build_tokenizer {PErr} (parse : string -> hir + PErr) (env : build_env) (fuel : nat) :=
    build string PErr parse env fuel calc_patterns.

  (** ** The parser, main.rs 40-84.  [Err] is the error type of reducers; none of these returns one. *)
  Context {Err : Type}.
  (** example/src/main.rs:42-82 *)
  Definition red := reducer (value F) (token F) Err.
  (** example/src/main.rs:44 *)
  Definition map2 (f : F -> F -> F) (a b : option F) : option F := (* a.and_then(|a| b.map(|b| ..)) *)
    match a with Some a => match b with Some b => Some (f a b) | None => None end | None => None end.
  (** example/src/main.rs:43-47 *)
  Definition sum_red (f : F -> F -> F) : red := fun l =>
    match l with [NonTerminal (Sum a); _; NonTerminal (Product b)] => GOk (Sum (map2 f a b)) | _ => GPanic end.
  (** example/src/main.rs:58-62 *)
  Definition product_red (f : F -> F -> F) : red := fun l =>
    match l with [NonTerminal (Product a); _; NonTerminal (Block b)] => GOk (Product (map2 f a b)) | _ => GPanic end.
  (** example/src/main.rs:41-83 *)
  Definition calc_syntax : syntax (value F) (token F) Err :=
    let rule_new := rule_new value_index token_index in
    let nt v := NonTerminal v in let tm t := Terminal t in
    sb_build value_index (fold_left sb_rule [
      rule_new (Sum None) [nt (Sum None); tm Add; nt (Product None)] (sum_red (fadd fo));
      rule_new (Sum None) [nt (Sum None); tm Sub; nt (Product None)] (sum_red (fsub fo));
      rule_new (Sum None) [nt (Product None)] (fun l => match l with [NonTerminal (Product a)] => GOk (Sum a) | _ => GPanic end);
      rule_new (Product None) [nt (Product None); tm Mul; nt (Block None)] (product_red (fmul fo));
      rule_new (Product None) [nt (Product None); tm Div; nt (Block None)] (product_red (fdiv fo));
      rule_new (Product None) [nt (Block None)] (fun l => match l with [NonTerminal (Block a)] => GOk (Product a) | _ => GPanic end);
      rule_new (Block None) [tm (Number (fzero fo))] (fun l => match l with [Terminal (Number n)] => GOk (Block (Some n)) | _ => GPanic end);
      rule_new (Block None) [tm Add; tm (Number (fzero fo))] (fun l => match l with [_; Terminal (Number n)] => GOk (Block (Some n)) | _ => GPanic end);
      rule_new (Block None) [tm Sub; tm (Number (fzero fo))] (fun l => match l with [_; Terminal (Number n)] => GOk (Block (Some (fneg fo n))) | _ => GPanic end);
      rule_new (Block None) [tm Bracket; nt (Sum None); tm CloseBracket] (fun l => match l with [_; NonTerminal (Sum n); _] => GOk (Block n) | _ => GPanic end);
      rule_new (Block None) [tm Sqrt; nt (Block None)] (fun l => match l with [_; NonTerminal (Block n)] => GOk (Block (option_map (fsqrt fo) n)) | _ => GPanic end)
    ] sb_new) (Sum None).
  (** example/src/main.rs:40 *)
  Definition calc_parser := parser (value F) (token F) Err.

  (** ** One turn of the main loop, main.rs 86-99.
      [flatten] drops the [None]s.  The iterators are lazy: in the program a maker runs only when the
      parser asks for the token.  Here all makers run first, so this model panics if the maker of any
      token of the line panics, which includes all panics of the program.  The lazy version is
      [calc_line_lazy] in PullModel.v. *)
  Fixpoint flatten (l : list (res (option (token F)))) : res (list (token F)) :=
    match l with
    | [] => Ok []
    | x :: l' => do o <- x; do r <- flatten l'; Ok (match o with Some t => t :: r | None => r end)
    end.
  (** example/src/main.rs:90-98 *)
  Inductive printed := PNumber (n : F) | PError (e : outcome (value F) Err).
  (** example/src/main.rs:87-98 *)
  Definition calc_line (t : calc_tokenizer) (P : calc_parser) (fuel : nat) (input : list N) : res printed :=
    do es <- tok_collect fuel t (fun c => c) (tokenize_with input);
    do ts <- flatten es;
    do r <- parse token_index P fuel ts;
    match r with
    | ROk (Sum (Some n)) => Ok (PNumber n)
    | RNotFound => Ok (PError RNotFound)
    | RReducer e => Ok (PError (RReducer e))
    | _ => Panic (* unreachable!() *)
    end.
  (** [n] turns of the loop; at the end of the input [read_line] succeeds and leaves the string empty (example/src/main.rs:86-99) *)
  Fixpoint calc_loop (t : calc_tokenizer) (P : calc_parser) (fuel n : nat) (lines : list (list N)) : res (list printed) :=
    match n with
    | 0 => Ok []
    | S n' => do x <- calc_line t P fuel (hd [] lines); do l <- calc_loop t P fuel n' (tl lines); Ok (x :: l)
    end.
End Calc.
