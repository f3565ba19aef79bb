(** * Model of the input syntax of the macros: parser_generator/src/lib.rs 14-299, tokenizer_generator/src/lib.rs 9-73.

    The macros read a stream of token trees with [syn] 1.0.  The parts of [syn] that they use are modelled here from
    its documentation: identifiers, custom keywords, punctuation (a token of several characters needs all but the
    last to be [Joint]; the spacing of the last one is not looked at), string literals, delimited groups,
    [Punctuated::parse_terminated].  Its parsers for visibilities, paths, types, patterns and expressions are parameters.
    Left out: spans and error messages, groups without delimiters, the unused [EnumItem], [EnumValue], [NoneToken].
    A group that is not read to its end is reported by [syn] when the whole input has been read; here at once. *)
From Coq Require Import List Arith Bool String Ascii.
From Verif Require Import Lib ParseModel GenModel.
Import ListNotations.
Local Notation length := List.length.

(** [proc_macro2::TokenTree]; a string literal is given by its value, other literals by their text (parser_generator/src/lib.rs:29-299) *)
Inductive delim := Paren | Brace | Bracket.
(** parser_generator/src/lib.rs:29-299 *)
Inductive ttree := TIdent (s : string) | TPunct (c : ascii) (joint : bool) | TStr (s : string) | TLit (s : string) | TGroup (d : delim) (ts : list ttree).
(** parser_generator/src/lib.rs:66, 98, 163, 276, 282 *)
Definition delim_eqb (a b : delim) : bool :=
  match a, b with Paren, Paren | Brace, Brace | Bracket, Bracket => true | _, _ => false end.

(** the result of a parser: a value and the rest of the stream, a [syn::Error], a panic (parser_generator/src/lib.rs:30, 312) *)
Inductive pres (A : Type) := POk (a : A) (rest : list ttree) | PErr | PPanic | PFuel.
Arguments POk {A}. Arguments PErr {A}. Arguments PPanic {A}. Arguments PFuel {A}.
(** `impl Parse`, parser_generator/src/lib.rs:29-39 *)
Definition parsing (A : Type) := list ttree -> pres A.
(** `?`, as in parser_generator/src/lib.rs:30-38 *)
Definition pbind {A B} (p : parsing A) (f : A -> parsing B) : parsing B :=
  fun ts => match p ts with POk a r => f a r | PErr => PErr | PPanic => PPanic | PFuel => PFuel end.
(** `Ok(..)`, as in parser_generator/src/lib.rs:30-38 *)
Definition pret {A} (a : A) : parsing A := fun ts => POk a ts.
Notation "'pdo' x <- p ; q" := (pbind p (fun x => q)) (at level 200, x pattern, p at level 100, q at level 200).
Notation "'pdo_' p ; q" := (pbind p (fun _ => q)) (at level 200, p at level 100, q at level 200).

Section Syn.
  (** the words that are not identifiers for [syn] *)
  Variable keyword : string -> bool.

  (** Ident::parse, parser_generator/src/lib.rs:80 *)
  Definition p_ident : parsing string :=
    fun ts => match ts with TIdent s :: r => if keyword s then PErr else POk s r | _ => PErr end.
  (** [Token![fn]] and the custom keywords, parser_generator/src/lib.rs:14-21, tokenizer_generator/src/lib.rs:9-13 *)
  Definition p_word (w : string) : parsing unit :=
    fun ts => match ts with TIdent s :: r => if String.eqb s w then POk tt r else PErr | _ => PErr end.
  (** `peek`, parser_generator/src/lib.rs:180 *)
  Definition peek_word (w : string) (ts : list ttree) : bool := match ts with TIdent s :: _ => String.eqb s w | _ => false end.
  (** Token![..], parser_generator/src/lib.rs:47-51 *)
  Fixpoint p_punct (cs : list ascii) : parsing unit :=
    fun ts =>
    match cs, ts with
    | [c], TPunct c' _ :: r => if Ascii.eqb c c' then POk tt r else PErr
    | c :: cs', TPunct c' true :: r => if Ascii.eqb c c' then p_punct cs' r else PErr
    | _, _ => PErr
    end.
  (** `peek`, parser_generator/src/lib.rs:178, 203, 233 *)
  Definition peek_punct (cs : list ascii) (ts : list ttree) : bool := match p_punct cs ts with POk _ _ => true | _ => false end.
  (** LitStr::parse, parser_generator/src/lib.rs:32 *)
  Definition p_str : parsing string := fun ts => match ts with TStr s :: r => POk s r | _ => PErr end.
  (** `peek`, parser_generator/src/lib.rs:31 *)
  Definition peek_str (ts : list ttree) : bool := match ts with TStr _ :: _ => true | _ => false end.
  (** `peek`, parser_generator/src/lib.rs:161 *)
  Definition peek_group (d : delim) (ts : list ttree) : bool := match ts with TGroup d' _ :: _ => delim_eqb d d' | _ => false end.
  (** [braced!], [bracketed!], [parenthesized!] and the parsing of the content (parser_generator/src/lib.rs:66, 98, 163, 276, 282) *)
  Definition p_group {A} (d : delim) (p : parsing A) : parsing A :=
    fun ts => match ts with
              | TGroup d' us :: r =>
                  if delim_eqb d d' then match p us with POk a [] => POk a r | POk _ _ => PErr | PErr => PErr | PPanic => PPanic | PFuel => PFuel end else PErr
              | _ => PErr
              end.
  (** a parser of [syn] (parser_generator/src/lib.rs:47-51, 227-245, 266-299) *)
  Definition p_sub {A} (p : list ttree -> option (A * list ttree)) : parsing A :=
    fun ts => match p ts with Some (a, r) => POk a r | None => PErr end.

  (** [Punctuated::parse_terminated] (parser_generator/src/lib.rs:67, 99) *)
  Fixpoint p_terminated {A} (item : parsing A) (c : ascii) (fuel : nat) : parsing (list A) :=
    fun ts =>
    match fuel with
    | 0 => PFuel
    | S f =>
        match ts with
        | [] => POk [] []
        | _ => (pdo a <- item; fun r => match r with [] => POk [a] [] | _ => (pdo_ p_punct [c]; pdo l <- p_terminated item c f; pret (a :: l)) r end) ts
        end
    end.
  (** parser_generator/src/lib.rs:60-70 *)
  Definition p_list {A} (item : parsing A) (c : ascii) : parsing (list A) := fun ts => p_terminated item c (S (length ts)) ts.

  Context {Vis Path Expr Typ Pat : Type}.
  Variables (p_vis : list ttree -> option (Vis * list ttree)) (p_path : list ttree -> option (Path * list ttree)) (p_expr : list ttree -> option (Expr * list ttree))
            (p_type : list ttree -> option (Typ * list ttree)) (p_pat : list ttree -> option (Pat * list ttree)).
  Open Scope char_scope.

  (** ** parser! *)
  (** [TokenKey], parser_generator/src/lib.rs:23-39 *)
  Definition p_key : parsing token_key :=
    fun ts => if peek_str ts then (pdo s <- p_str; pret (KRaw s)) ts else (pdo s <- p_ident; pret (KNamed s)) ts.
  (** [TokenItem] parser_generator/src/lib.rs:41-51, [SymbolItem] 72-83 *)
  Definition p_token_item : parsing (token_key * Expr) := pdo k <- p_key; pdo_ p_punct ["="]; pdo v <- p_sub p_expr; pret (k, v).
  (** parser_generator/src/lib.rs:72-83 *)
  Definition p_symbol_item : parsing (string * Expr) := pdo k <- p_ident; pdo_ p_punct ["="]; pdo v <- p_sub p_expr; pret (k, v).
  (** [TokenList] parser_generator/src/lib.rs:53-70, [SymbolList] 85-102 *)
  Definition p_token_list : parsing (Path * list (token_key * Expr)) :=
    pdo_ p_word "token"; pdo n <- p_sub p_path; pdo l <- p_group Brace (p_list p_token_item ","); pret (n, l).
  (** parser_generator/src/lib.rs:85-102 *)
  Definition p_symbol_list : parsing (Path * list (string * Expr)) :=
    pdo_ p_word "symbol"; pdo n <- p_sub p_path; pdo l <- p_group Brace (p_list p_symbol_item ","); pret (n, l).
  (** [BNFTerminalSymbol] parser_generator/src/lib.rs:154-168, [BNFSymbol] 170-186 *)
  Definition p_bnf_symbol : parsing bnf_symbol :=
    fun ts =>
    if peek_punct ["<"] ts then (pdo_ p_punct ["<"]; pdo n <- p_ident; pdo_ p_punct [">"]; pret (BNonTerminal n)) ts
    else if peek_word "ERROR" ts then (pdo_ p_word "ERROR"; pret BError) ts
    else if peek_group Bracket ts then (pdo n <- p_group Bracket p_ident; pret (BTerminal (KNamed n))) ts
    else (pdo s <- p_str; pret (BTerminal (KRaw s))) ts.
  (** [BNFRuleKey] parser_generator/src/lib.rs:196-215 *)
  Definition p_bnf_key : parsing bnf_key :=
    fun ts =>
    if peek_punct ["<"] ts then (pdo_ p_punct ["<"]; pdo n <- p_ident; pdo_ p_punct [">"]; pdo_ p_punct [":"; ":"]; pdo_ p_punct ["="]; pret (Named n)) ts
    else (pdo_ p_punct ["|"]; pret Follow) ts.
  (** the symbols of a rule, parser_generator/src/lib.rs:231-237 *)
  Fixpoint p_symbols (fuel : nat) : parsing (list bnf_symbol) :=
    fun ts =>
    match fuel with
    | 0 => PFuel
    | S f => if peek_punct [":"] ts then POk [] ts else (pdo x <- p_bnf_symbol; pdo l <- p_symbols f; pret (x :: l)) ts
    end.
  (** [BNFRule] parser_generator/src/lib.rs:217-225 *)
  Record syn_rule := mk_sr { sr_key : bnf_key; sr_rule : list bnf_symbol; sr_pat : Pat; sr_gen : Expr }.
  (** parser_generator/src/lib.rs:227-245 *)
  Definition p_bnf_rule : parsing syn_rule :=
    pdo k <- p_bnf_key; pdo l <- (fun ts => p_symbols (S (length ts)) ts); pdo_ p_punct [":"]; pdo pt <- p_sub p_pat; pdo_ p_punct ["="; ">"];
    pdo g <- p_sub p_expr; pdo_ p_punct [";"]; pret (mk_sr k l pt g).
  (** the rules, parser_generator/src/lib.rs:291-296 *)
  Fixpoint p_rules (fuel : nat) : parsing (list syn_rule) :=
    fun ts =>
    match fuel with
    | 0 => PFuel
    | S f => match ts with [] => POk [] [] | _ => (pdo r <- p_bnf_rule; pdo l <- p_rules f; pret (r :: l)) ts end
    end.

  (** [ParserGeneratorInput] parser_generator/src/lib.rs:247-264 *)
  Record syn_input := mk_si {
    si_vis : Vis; si_name : string; si_token_type : Path; si_tokens : list (token_key * Expr); si_symbol_type : Path; si_symbols : list (string * Expr);
    si_error : Typ; si_start : string; si_rules : list syn_rule }.
  (** parser_generator/src/lib.rs:275-279, tokenizer_generator/src/lib.rs:56-60: the argument list has to be empty, otherwise [assert!] panics *)
  Definition p_no_args : parsing unit :=
    fun ts => match ts with TGroup Paren us :: r => match us with [] => POk tt r | _ => PPanic end | _ => PErr end.
  (** parser_generator/src/lib.rs:266-299 *)
  Definition p_parser_input : parsing syn_input :=
    pdo v <- p_sub p_vis; pdo_ p_word "fn"; pdo name <- p_ident; pdo_ p_no_args; pdo_ p_punct ["-"; ">"]; pdo_ p_word "LR1Parser";
    p_group Brace (
      pdo (tn, tl) <- p_token_list; pdo (sn, sl) <- p_symbol_list; pdo_ p_word "errortype"; pdo e <- p_sub p_type; pdo_ p_punct [";"];
      pdo_ p_word "start"; pdo st <- p_ident; pdo_ p_punct [";"]; pdo rs <- (fun ts => p_rules (S (length ts)) ts);
      pret (mk_si v name tn tl sn sl e st rs)).
  (** [parse_macro_input!], parser_generator/src/lib.rs:312, tokenizer_generator/src/lib.rs:77: nothing may be left *)
  Definition whole {A} (p : parsing A) (ts : list ttree) : pres A :=
    match p ts with POk a [] => POk a [] | POk _ _ => PErr | x => x end.
  (** parser_generator/src/lib.rs:312 *)
  Definition read_parser : list ttree -> pres syn_input := whole p_parser_input.

  (** what the macro goes on with (parser_generator/src/lib.rs:312): the expressions of the tokens and symbols are values of the user's types, a pattern
      and an expression are a reducer *)
  Definition input_of {N T E} (tval : Expr -> T) (nval : Expr -> N) (red : Pat -> Expr -> ParseModel.reducer N T E) (si : syn_input) : minput N T E :=
    mk_minput (map (fun kv => (fst kv, tval (snd kv))) (si_tokens si)) (map (fun kv => (fst kv, nval (snd kv))) (si_symbols si)) (si_start si)
      (map (fun r => mk_bnf (sr_key r) (sr_rule r) (red (sr_pat r) (sr_gen r))) (si_rules si)).

  (** ** tokenizer!, tokenizer_generator *)
  (** [TokenizerRule] tokenizer_generator/src/lib.rs:15-29 *)
  Definition p_tok_rule : parsing (string * Expr) := pdo r <- p_str; pdo_ p_punct [":"]; pdo g <- p_sub p_expr; pret (r, g).
  (** [TokenizerGeneratorInput] tokenizer_generator/src/lib.rs:31-46 *)
  Record tok_input := mk_ti { ti_vis : Vis; ti_name : string; ti_char : Typ; ti_token : Typ; ti_rules : list (string * Expr) }.
  (** tokenizer_generator/src/lib.rs:48-73 *)
  Definition p_tokenizer_input : parsing tok_input :=
    pdo v <- p_sub p_vis; pdo_ p_word "fn"; pdo name <- p_ident; pdo_ p_no_args; pdo_ p_punct ["-"; ">"]; pdo_ p_word "DFATokenizer";
    p_group Brace (
      pdo_ p_word "character"; pdo c <- p_sub p_type; pdo_ p_punct [";"]; pdo_ p_word "token"; pdo t <- p_sub p_type; pdo_ p_punct [";"];
      pdo l <- p_list p_tok_rule ";"; pret (mk_ti v name c t l)).
  (** tokenizer_generator/src/lib.rs:77 *)
  Definition read_tokenizer : list ttree -> pres tok_input := whole p_tokenizer_input.
End Syn.
Arguments syn_rule : clear implicits.
Arguments syn_input : clear implicits.
Arguments tok_input : clear implicits.
