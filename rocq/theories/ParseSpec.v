(** * The vocabulary of the theorems about grammars and [parse] (specification)

    What a user sees: rules made with the public functions, a parser made from them, what [parse]
    does on a token sequence. *)
From Coq Require Import List Arith Bool Sorted.
From Verif Require Import Lib Grammar LrModel ParseModel Trees.
Import ListNotations.

Section Api.
  Context {N T E : Type} (nix : N -> nat) (tix : T -> nat).

  (** what the functions of [RuleBuilder] can make *)
  Inductive rb_made : rule_builder -> Prop :=
  | made_new x : rb_made (rb_new nix x)
  | made_nt b x : rb_made b -> rb_made (rb_non_terminal nix b x)
  | made_t b x : rb_made b -> rb_made (rb_terminal tix b x)
  | made_err b : rb_made b -> rb_made (rb_error b).

  (** the rules that can be made with the public functions *)
  Inductive api_rule : crule N T E -> Prop :=
  | api_raw a l g : api_rule (rule_new_raw a l g)
  | api_new a l g : api_rule (rule_new nix tix a l g)
  | api_builder b g : rb_made b -> api_rule (rb_build b g).
  Definition api_syntax (s : syntax N T E) : Prop := Forall api_rule (sx_rules s).
End Api.

Section Words.
  Context {N T E : Type} (tix : T -> nat).

  (** the grammar and the reducers of a syntax *)
  Definition gram (s : syntax N T E) : list rule := map cr_rule (sx_rules s).
  Definition gens (s : syntax N T E) : list (reducer N T E) := map cr_gen (sx_rules s).

  (** the token classes of a token sequence *)
  Definition kinds (w : list T) : list term := map (fun x => TSym (tix x)) w.
  (** the language of the start symbol *)
  Definition derivable (s : syntax N T E) (w : list T) : Prop := der (gram s) (NT (sx_start s)) (kinds w).

  Definition error_free (s : syntax N T E) : Prop := forall r, In r (gram s) -> ~ In (TM TErr) (r_rhs r).

  (** no string of the language of the grammar, in which the error symbol is a terminal like the others, has
      two error symbols next to each other *)
  Definition errors_apart (s : syntax N T E) : Prop := forall u v, ~ der (gram s) (NT (sx_start s)) (u ++ TErr :: TErr :: v).

  (** [LR1Parser::new] on [s] returned the parser [P] and the warnings [ws] *)
  Definition makes (e : lr_env) (s : syntax N T E) (P : parser N T E) (ws : list warning) : Prop :=
    lr_env_ok e /\ exists fuel, lr1_new e fuel s = Ok (P, ws).

  (** [parse] on the tokens [w] returns [o]; panics; never returns *)
  Definition returns (P : parser N T E) (w : list T) (o : outcome N E) : Prop := exists fuel, parse tix P fuel w = Ok o.
  Definition panics (P : parser N T E) (w : list T) : Prop := exists fuel, parse tix P fuel w = Panic.
  Definition diverges (P : parser N T E) (w : list T) : Prop := forall fuel, parse tix P fuel w = OutOfFuel.

  (** [parse] does what the evaluation [r] of a derivation tree does *)
  Definition yields (P : parser N T E) (w : list T) (r : gres (arg N T) E) : Prop :=
    match r with
    | GOk (NonTerminal v) => returns P w (ROk v)
    | GOk _ => False
    | GErr e => returns P w (RReducer e)
    | GPanic => panics P w
    end.

  (** a derivation tree of the token sequence [w] from the start symbol *)
  Definition tree_of (s : syntax N T E) (w : list T) (t : tree) : Prop :=
    twf tix (gram s) w (NT (sx_start s)) t /\ leaves t = seq 0 (length w).

  (** ... without error leaves *)
  Definition proper_tree (s : syntax N T E) (w : list T) (t : tree) : Prop := tree_of s w t /\ clean t = true.

  (** ** Reducer calls *)
  (** an argument is of the kind that the symbol in the rule asks for *)
  Definition fits (X : sym) (a : arg N T) : Prop :=
    match X, a with
    | NT _, NonTerminal _ => True
    | TM (TSym k), Terminal x => tix x = k
    | TM TErr, ErrorSym l => l <> []
    | _, _ => False
    end.
  Definition terminals (args : list (arg N T)) : list T :=
    flat_map (fun a => match a with Terminal x => [x] | _ => [] end) args.
  (** the arguments of a reducer of a rule with right-hand side [l]: of the right kinds; the tokens
      are tokens of the input in their order; the error slices are pieces of the input *)
  Definition good_args (w : list T) (l : list sym) (args : list (arg N T)) : Prop :=
    Forall2 fits l args /\
    (exists ps, StronglySorted Nat.lt ps /\ Forall2 (fun i x => nth_error w i = Some x) ps (terminals args)) /\
    (forall sl, In (ErrorSym sl) args -> exists a b, w = a ++ sl ++ b).

  (** A property [ty A] of the values of each nonterminal [A], such as being a certain variant of an enum;
      the values among the arguments have the properties that the rule asks for. *)
  Definition typed (ty : nat -> N -> Prop) (l : list sym) (args : list (arg N T)) : Prop :=
    forall j A v, nth_error l j = Some (NT A) -> nth_error args j = Some (NonTerminal v) -> ty A v.
  (** the reducers keep [ty] *)
  Definition keeps (ty : nat -> N -> Prop) (s : syntax N T E) (w : list T) : Prop :=
    forall r args v, In r (sx_rules s) -> good_args w (r_rhs (cr_rule r)) args -> typed ty (r_rhs (cr_rule r)) args ->
      cr_gen r args = GOk v -> ty (r_lhs (cr_rule r)) v.
  (** the reducers succeed on such arguments *)
  Definition total_typed (ty : nat -> N -> Prop) (s : syntax N T E) (w : list T) : Prop :=
    forall r args, In r (sx_rules s) -> good_args w (r_rhs (cr_rule r)) args -> typed ty (r_rhs (cr_rule r)) args ->
      exists v, cr_gen r args = GOk v /\ ty (r_lhs (cr_rule r)) v.
  Definition total_on (s : syntax N T E) (w : list T) : Prop := exists ty, total_typed ty s w.

  (** the reducer calls of a run of at most [fuel] turns, in order *)
  Fixpoint calls (P : parser N T E) (fuel : nat) (s : pstate N T) : list (nat * list (arg N T)) :=
    match fuel with
    | 0 => []
    | S f => match step_call tix P s with Some c => [c] | None => [] end ++
             match parse_step tix P s with inl s' => calls P f s' | inr _ => [] end
    end.
  Definition parse_calls (P : parser N T E) (fuel : nat) (w : list T) : list (nat * list (arg N T)) :=
    calls P fuel (ps_init P w).

  (** ** Syntax errors *)
  (** the lookahead and its position when a turn detects a syntax error (iter.rs 121) *)
  Definition step_error (P : parser N T E) (s : pstate N T) : option (term * nat) :=
    match ps_buf (ps_read tix s) with
    | (t, i) :: _ => match act (pr_tab P) (ps_state (ps_read tix s)) t with Ok None => Some (t, i) | _ => None end
    | [] => None
    end.
  (** the syntax errors detected in a run of at most [fuel] turns, in order *)
  Fixpoint errors (P : parser N T E) (fuel : nat) (s : pstate N T) : list (term * nat) :=
    match fuel with
    | 0 => []
    | S f => match step_error P s with Some c => [c] | None => [] end ++
             match parse_step tix P s with inl s' => errors P f s' | inr _ => [] end
    end.
  Definition parse_errors (P : parser N T E) (fuel : nat) (w : list T) : list (term * nat) :=
    errors P fuel (ps_init P w).

  (** ** Which tokens the reducers get to see *)
  (** the pieces [lo..=hi] of the input that a stack symbol stands for *)
  Definition piece (e : entry N) : list (nat * nat) :=
    match e with ETok _ i => [(i, i)] | EErr lo hi => [(lo, hi)] | _ => [] end.
  (** the pieces handed to the reducer that a turn calls, if it calls one.  [step_uses_shown] in ParseCover.v
      says that these are the tokens and error slices among its arguments. *)
  Definition part (w : list T) (lh : nat * nat) : list T := firstn (S (snd lh) - fst lh) (skipn (fst lh) w).
  Definition shown (a : arg N T) : list (list T) := match a with Terminal x => [[x]] | ErrorSym l => [l] | NonTerminal _ => [] end.
  Definition step_uses (P : parser N T E) (s : pstate N T) : list (nat * nat) :=
    match step_call tix P s with
    | Some (k, args) => flat_map piece (map snd (rev (firstn (length args) (ps_stack s))))
    | None => []
    end.
  Fixpoint uses (P : parser N T E) (fuel : nat) (s : pstate N T) : list (nat * nat) :=
    match fuel with
    | 0 => []
    | S f => step_uses P s ++ match parse_step tix P s with inl s' => uses P f s' | inr _ => [] end
    end.
  Definition parse_uses (P : parser N T E) (fuel : nat) (w : list T) : list (nat * nat) := uses P fuel (ps_init P w).

  (** the states of the parser on the input [w] *)
  Inductive turns (P : parser N T E) (w : list T) : pstate N T -> Prop :=
  | turns_init : turns P w (ps_init P w)
  | turns_step s s' : turns P w s -> parse_step tix P s = inl s' -> turns P w s'.
  (** ... before a syntax error has been detected *)
  Inductive quiet (P : parser N T E) (w : list T) : pstate N T -> Prop :=
  | quiet_init : quiet P w (ps_init P w)
  | quiet_step s s' : quiet P w s -> step_error P s = None -> parse_step tix P s = inl s' -> quiet P w s'.

  (** the tokens taken from the iterator when the turn that starts in [s] decides what to do *)
  Definition pulled (s : pstate N T) : list T := ps_syms (ps_read tix s).
  (** the tokens shifted before; meaningful for [quiet] states: without recovery no token is put back *)
  Definition shifted (s : pstate N T) : list T :=
    firstn (length (ps_syms s) - length (filter (fun c => match fst c with TSym _ => true | _ => false end) (ps_buf s))) (ps_syms s).
End Words.
