(** * How the macros are written, independently of how they are read.

    A piece of input is a list of token trees.  [is_vis], [is_path], [is_expr], [is_type], [is_pat] say which pieces are Rust
    visibilities, paths, expressions, types and patterns, and what they mean; the rest is the notation of the macros:

    {v  <vis> fn <name> () -> LR1Parser {
          token <path>  { <key> = <expr>, ... }
          symbol <path> { <name> = <expr>, ... }
          errortype <type>;
          start <name>;
          <name> ::= <symbols> : <pat> => <expr>;       (or | in place of <name> ::=)
          ... }
        <vis> fn <name> () -> DFATokenizer { character <type>; token <type>; "pattern" : <expr>; ... }  v} *)
From Coq Require Import List Bool String Ascii.
From Verif Require Import GenModel SynModel.
Import ListNotations.
Open Scope char_scope.

(** A parser of [syn] for one kind of Rust syntax: what it reads is a piece of that kind, and it reads every such piece when
    what follows is in [follow]. *)
Record reads {A : Type} (p : list ttree -> option (A * list ttree)) (is : list ttree -> A -> Prop) (follow : list ttree -> Prop) : Prop := {
  reads_only : forall ts a r, p ts = Some (a, r) -> exists us, ts = us ++ r /\ is us a;
  reads_all : forall us a r, is us a -> follow r -> p (us ++ r) = Some (a, r) }.

(** what can follow a piece *)
Definition at_end (r : list ttree) : Prop := r = [].
Definition before_punct (c : ascii) (r : list ttree) : Prop := exists j r', r = TPunct c j :: r'.
Definition before_arrow (r : list ttree) : Prop := exists j r', r = TPunct "=" true :: TPunct ">" j :: r'.
Definition before_brace (r : list ttree) : Prop := exists us r', r = TGroup Brace us :: r'.
Definition before_fn (r : list ttree) : Prop := exists r', r = TIdent "fn" :: r'.
Definition after_expr (r : list ttree) : Prop := at_end r \/ before_punct "," r \/ before_punct ";" r.

(** items separated by [c], with or without a last [c] *)
Inductive listed {A : Type} (item : list ttree -> A -> Prop) (c : ascii) : list ttree -> list A -> Prop :=
| listed_none : listed item c [] []
| listed_last : forall us a, item us a -> listed item c us [a]
| listed_more : forall us a j vs l, item us a -> listed item c vs l -> listed item c (us ++ TPunct c j :: vs) (a :: l).

Section Text.
  Variable keyword : string -> bool.
  Context {Vis Path Expr Typ Pat : Type}.
  Variables (is_vis : list ttree -> Vis -> Prop) (is_path : list ttree -> Path -> Prop) (is_expr : list ttree -> Expr -> Prop)
            (is_type : list ttree -> Typ -> Prop) (is_pat : list ttree -> Pat -> Prop).

  (** a token is named by an identifier or by a string *)
  Inductive key_text : ttree -> token_key -> Prop :=
  | key_named : forall s, keyword s = false -> key_text (TIdent s) (KNamed s)
  | key_raw : forall s, key_text (TStr s) (KRaw s).
  Inductive token_text : list ttree -> token_key * Expr -> Prop :=
  | token_is : forall t k j us v, key_text t k -> is_expr us v -> token_text (t :: TPunct "=" j :: us) (k, v).
  Inductive symbol_text : list ttree -> string * Expr -> Prop :=
  | symbol_is : forall s j us v, keyword s = false -> is_expr us v -> symbol_text (TIdent s :: TPunct "=" j :: us) (s, v).

  (** symbols of rules: [<name>], [ERROR], [[name]], ["string"] *)
  Inductive item_text : list ttree -> bnf_symbol -> Prop :=
  | item_non_terminal : forall n j k, keyword n = false -> item_text [TPunct "<" j; TIdent n; TPunct ">" k] (BNonTerminal n)
  | item_error : item_text [TIdent "ERROR"] BError
  | item_named : forall n, keyword n = false -> item_text [TGroup Bracket [TIdent n]] (BTerminal (KNamed n))
  | item_raw : forall s, item_text [TStr s] (BTerminal (KRaw s)).
  Inductive items_text : list ttree -> list bnf_symbol -> Prop :=
  | items_nil : items_text [] []
  | items_cons : forall us x vs l, item_text us x -> items_text vs l -> items_text (us ++ vs) (x :: l).
  Inductive left_text : list ttree -> bnf_key -> Prop :=
  | left_named : forall n j k l m, keyword n = false ->
      left_text [TPunct "<" j; TIdent n; TPunct ">" k; TPunct ":" true; TPunct ":" l; TPunct "=" m] (Named n)
  | left_follow : forall j, left_text [TPunct "|" j] Follow.
  Inductive rule_text : list ttree -> syn_rule Expr Pat -> Prop :=
  | rule_is : forall ks k xs l ps p es g j1 j2 j3, left_text ks k -> items_text xs l -> is_pat ps p -> is_expr es g ->
      rule_text (ks ++ xs ++ TPunct ":" j1 :: ps ++ TPunct "=" true :: TPunct ">" j2 :: es ++ [TPunct ";" j3]) (mk_sr k l p g).
  Inductive rules_text : list ttree -> list (syn_rule Expr Pat) -> Prop :=
  | rules_nil : rules_text [] []
  | rules_cons : forall us r vs l, rule_text us r -> rules_text vs l -> rules_text (us ++ vs) (r :: l).

  (** the whole input of [parser!] *)
  Inductive parser_text : list ttree -> syn_input Vis Path Expr Typ Pat -> Prop :=
  | parser_is : forall vs v name j tps tp tls tl sps sp sls sl es e j1 st j2 rs rl,
      is_vis vs v -> keyword name = false -> is_path tps tp -> listed token_text "," tls tl -> is_path sps sp -> listed symbol_text "," sls sl ->
      is_type es e -> keyword st = false -> rules_text rs rl ->
      parser_text
        (vs ++ [TIdent "fn"; TIdent name; TGroup Paren []; TPunct "-" true; TPunct ">" j; TIdent "LR1Parser"; TGroup Brace
           (TIdent "token" :: tps ++ TGroup Brace tls ::
            TIdent "symbol" :: sps ++ TGroup Brace sls ::
            TIdent "errortype" :: es ++ TPunct ";" j1 ::
            TIdent "start" :: TIdent st :: TPunct ";" j2 :: rs)])
        (mk_si v name tp tl sp sl e st rl).

  (** the whole input of [tokenizer!] *)
  Inductive pattern_text : list ttree -> string * Expr -> Prop :=
  | pattern_is : forall s j us v, is_expr us v -> pattern_text (TStr s :: TPunct ":" j :: us) (s, v).
  Inductive tokenizer_text : list ttree -> tok_input Vis Expr Typ -> Prop :=
  | tokenizer_is : forall vs v name j cs c j1 ts t j2 rs rl,
      is_vis vs v -> keyword name = false -> is_type cs c -> is_type ts t -> listed pattern_text ";" rs rl ->
      tokenizer_text
        (vs ++ [TIdent "fn"; TIdent name; TGroup Paren []; TPunct "-" true; TPunct ">" j; TIdent "DFATokenizer"; TGroup Brace
           (TIdent "character" :: cs ++ TPunct ";" j1 :: TIdent "token" :: ts ++ TPunct ";" j2 :: rs)])
        (mk_ti v name c t rl).

  (** the function has arguments *)
  Definition with_arguments (ts : list ttree) : Prop :=
    exists vs v name args r, is_vis vs v /\ keyword name = false /\ args <> [] /\ ts = vs ++ TIdent "fn" :: TIdent name :: TGroup Paren args :: r.
End Text.
