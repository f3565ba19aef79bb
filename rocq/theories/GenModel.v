(** * Model of parser_generator/src/lib.rs: the macro [parser!] and the function it generates.

    Modelled from the parsed macro input on; the reading of the macro input (24-299) is in [SynModel.v],
    what is used of its result is the record [minput] ([input_of] there).  A generator [pattern => expression] becomes the closure
    [|list| match list { pattern => expression, _ => panic!(..) }] (440-450), i.e. an arbitrary reducer.
    The values of the token and symbol lists are expressions of the user's types; all the generated
    code does with them is to take their [enum_index] (474-475).  Printing to stderr (345-351) and
    [shrink_to_fit] are left out. *)
From Coq Require Import List Arith Lia Bool String.
From Verif Require Import Lib Grammar LrModel ParseModel.
Import ListNotations.

(** [TokenKey], parser_generator/src/lib.rs:23-27 *)
Inductive token_key := KNamed (s : string) | KRaw (s : string).
(** parser_generator/src/lib.rs:23 (derived PartialEq) *)
Definition token_key_eqb (a b : token_key) : bool :=
  match a, b with
  | KNamed x, KNamed y => String.eqb x y
  | KRaw x, KRaw y => String.eqb x y
  | _, _ => false
  end.
(** [BNFSymbol], parser_generator/src/lib.rs:170-174; the two kinds of terminals (154-157) are told apart by the key *)
Inductive bnf_symbol := BTerminal (k : token_key) | BNonTerminal (name : string) | BError.
(** [BNFRuleKey], parser_generator/src/lib.rs:196-199 *)
Inductive bnf_key := Named (name : string) | Follow.

Section Macro.
  Context {N T E : Type} (nix : N -> nat) (tix : T -> nat).

  (** [BNFRule], parser_generator/src/lib.rs:217-225: pattern and generator together are the reducer *)
  Record bnf_rule := mk_bnf { bn_key : bnf_key; bn_rule : list bnf_symbol; bn_gen : reducer N T E }.
  (** [ParserGeneratorInput], parser_generator/src/lib.rs:247-264 *)
  Record minput := mk_minput {
    mi_tokens : list (token_key * T);
    mi_symbols : list (string * N);
    mi_start : string;
    mi_rules : list bnf_rule }.

  (** parser_generator/src/lib.rs:314, 316: names to positions; a later item with the same name replaces an earlier one *)
  Definition name_map {K V} (keq : K -> K -> bool) (items : list (K * V)) : list (K * nat) :=
    fold_left (fun m ik => aset keq (fst (snd ik)) (fst ik) m) (combine (seq 0 (List.length items)) items) [].

  (** parser_generator/src/lib.rs:332-341, one symbol of a right-hand side *)
  Definition item_symbol (tm : list (token_key * nat)) (sm : list (string * nat)) (x : bnf_symbol) : res (symbol nat nat unit) :=
    match x with
    | BTerminal k => do i <- of_opt (aget token_key_eqb k tm); Ok (Terminal i)
    | BNonTerminal n => do i <- of_opt (aget String.eqb n sm); Ok (NonTerminal i)
    | BError => Ok (ErrorSym tt)
    end.

  (** parser_generator/src/lib.rs:320-343: the loop over the rules; the state is [above_rule_key], [keys] and the rules of the builder.
      The reducers of this syntax are [|_| unreachable!()]. *)
  Record mstate := mk_ms { ms_above : option nat; ms_keys : list nat; ms_rules : list (crule nat nat unit) }.
  (** parser_generator/src/lib.rs:320-343 *)
  Definition rule_step (tm : list (token_key * nat)) (sm : list (string * nat)) (st : mstate) (r : bnf_rule) : res mstate :=
    do start <- of_opt (match bn_key r with Named n => aget String.eqb n sm | Follow => ms_above st end);
    do items <- mapM (item_symbol tm sm) (bn_rule r);
    Ok (mk_ms (Some start) (ms_keys st ++ [start]) (sb_rule (ms_rules st) (rule_new_raw start items (fun _ => GPanic)))).

  (** parser_generator/src/lib.rs:313-344: the keys and the syntax over [AnonymousSymbol]s, whose [enum_index] is the number itself (301-308) *)
  Definition macro_syntax (mi : minput) : res (list nat * syntax nat nat unit) :=
    let tm := name_map token_key_eqb (mi_tokens mi) in
    let sm := name_map String.eqb (mi_symbols mi) in
    do st <- foldM (rule_step tm sm) (mi_rules mi) (mk_ms None [] sb_new);
    do start <- of_opt (aget String.eqb (mi_start mi) sm);
    Ok (ms_keys st, sb_build (fun i => i) (ms_rules st) start).

  (** parser_generator/src/lib.rs:347: the tables; [rules] are dropped *)
  Definition expand (e : lr_env) (fuel : nat) (mi : minput) : res (list nat * lr_parser) :=
    do ks <- macro_syntax mi;
    do pw <- lr1_new e fuel (snd ks);
    Ok (fst ks, pr_tab (fst pw)).

  (** The orders in which the macro walks the hash maps and sets of the tables (parser_generator/src/lib.rs:354, 356, 393, 395, 417, 419).
      A walk over a map meets every key once, with its value. *)
  Record gen_env := mk_gen_env {
    ge_action : list (nat * list (term * action nat)) -> list (nat * list (term * action nat));
    ge_action_row : list (term * action nat) -> list (term * action nat);
    ge_goto : list (nat * list (nat * nat)) -> list (nat * list (nat * nat));
    ge_goto_row : list (nat * nat) -> list (nat * nat);
    ge_errors : list (nat * list nat) -> list (nat * list nat);
    ge_error_row : list nat -> list nat }.
  (** an iteration order, parser_generator/src/lib.rs:354-419 *)
  Definition walks {K V} (keq : K -> K -> bool) (m l : list (K * V)) : Prop := NoDup (map fst l) /\ forall k, aget keq k l = aget keq k m.
  (** parser_generator/src/lib.rs:354-419 *)
  Definition gen_env_ok (g : gen_env) : Prop :=
    (forall m, walks eqb m (ge_action g m)) /\ (forall m, walks eqb m (ge_action_row g m)) /\
    (forall m, walks eqb m (ge_goto g m)) /\ (forall m, walks eqb m (ge_goto_row g m)) /\
    (forall m, walks eqb m (ge_errors g m)) /\ (forall l x, In x (ge_error_row g l) <-> In x l).

  (** ** The generated function, 471-490 *)
  (** parser_generator/src/lib.rs:357-363: [tokens[s]] panics when absent *)
  Definition gen_term (tokens : list nat) (t : term) : res term :=
    match t with TSym s => do i <- of_opt (nth_error tokens s); Ok (TSym i) | TErr => Ok TErr | TEoi => Ok TEoi end.
  (** parser_generator/src/lib.rs:356-370 *)
  Definition gen_action_row (g : gen_env) (tokens : list nat) (row : list (term * action nat)) : res (list (term * action nat)) :=
    foldM (fun m ka => do k <- gen_term tokens (fst ka); Ok (aset eqb k (snd ka) m)) (ge_action_row g row) [].
  (** parser_generator/src/lib.rs:352-390 *)
  Definition gen_action (g : gen_env) (tokens : list nat) (tb : list (nat * list (term * action nat))) : res (list (nat * list (term * action nat))) :=
    foldM (fun m kr => do r <- gen_action_row g tokens (snd kr); Ok (aset eqb (fst kr) r m)) (ge_action g tb) [].
  (** parser_generator/src/lib.rs:395 *)
  Definition gen_goto_row (g : gen_env) (symbols : list nat) (row : list (nat * nat)) : res (list (nat * nat)) :=
    foldM (fun m ka => do k <- of_opt (nth_error symbols (fst ka)); Ok (aset eqb k (snd ka) m)) (ge_goto_row g row) [].
  (** parser_generator/src/lib.rs:391-414 *)
  Definition gen_goto (g : gen_env) (symbols : list nat) (tb : list (nat * list (nat * nat))) : res (list (nat * list (nat * nat))) :=
    foldM (fun m kr => do r <- gen_goto_row g symbols (snd kr); Ok (aset eqb (fst kr) r m)) (ge_goto g tb) [].
  (** parser_generator/src/lib.rs:415-438 *)
  Definition gen_errors (g : gen_env) (tb : list (nat * list nat)) : list (nat * list nat) :=
    fold_left (fun m kr => aset eqb (fst kr) (ge_error_row g (snd kr)) m) (ge_errors g tb) [].

  (** parser_generator/src/lib.rs:453-466: the items of a rule in the generated code; [expect("")] cannot fail when [expand] succeeded
      but is modelled *)
  Definition gen_item (tm : list (token_key * nat)) (sm : list (string * nat)) (tokens symbols : list nat) (x : bnf_symbol) : res (symbol nat nat unit) :=
    match x with
    | BTerminal k => do i <- of_opt (aget token_key_eqb k tm); do t <- of_opt (nth_error tokens i); Ok (Terminal t)
    | BNonTerminal n => do i <- of_opt (aget String.eqb n sm); do t <- of_opt (nth_error symbols i); Ok (NonTerminal t)
    | BError => Ok (ErrorSym tt)
    end.
  (** parser_generator/src/lib.rs:439-468: [keys[i]] *)
  Definition gen_rule (tm : list (token_key * nat)) (sm : list (string * nat)) (tokens symbols : list nat) (keys : list nat) (ir : nat * bnf_rule) : res (crule N T E) :=
    do start <- of_opt (nth_error keys (fst ir));
    do s <- of_opt (nth_error symbols start);
    do items <- mapM (gen_item tm sm tokens symbols) (bn_rule (snd ir));
    Ok (rule_new_raw s items (bn_gen (snd ir))).

  (** parser_generator/src/lib.rs:473-489: what a call of the generated function returns.  The generated parser has no rule for the
      internal start symbol; [build_raw(start)] (481) only stores the number, which [into_rules] drops. *)
  Definition generated (g : gen_env) (mi : minput) (keys : list nat) (p : lr_parser) : res (parser N T E) :=
    let tm := name_map token_key_eqb (mi_tokens mi) in
    let sm := name_map String.eqb (mi_symbols mi) in
    let tokens := map (fun kv => tix (snd kv)) (mi_tokens mi) in
    let symbols := map (fun kv => nix (snd kv)) (mi_symbols mi) in
    do act <- gen_action g tokens (p_action p);
    do go <- gen_goto g symbols (p_goto p);
    let errs := gen_errors g (p_errors p) in
    do rules <- mapM (gen_rule tm sm tokens symbols keys) (combine (seq 0 (List.length (mi_rules mi))) (mi_rules mi));
    Ok (mk_lr1 (mk_parser (map cr_rule rules) act go errs (p_start p)) (map cr_gen rules)).
End Macro.
Arguments bnf_rule : clear implicits.
Arguments minput : clear implicits.
