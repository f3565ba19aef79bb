(** * Operator tables (specification)

    The usual way to write a grammar of expressions: one nonterminal per level of precedence, operators of one level with the
    same fixity, operands and brackets at the tightest level. This is a grammar as a user writes it, a value given to
    LR1Parser::new (parser/src/parser.rs 321); the library has no such tables. *)
From Coq Require Import List Arith.
From Verif Require Import Lib Grammar LrModel ParseModel Trees ParseSpec.
Import ListNotations.

Inductive fixity := InfixLeft | InfixRight | InfixNone | Prefix | Postfix.
Definition is_prefix (f : fixity) : bool := match f with Prefix => true | _ => false end.
Definition is_infix (f : fixity) : bool := match f with Prefix | Postfix => false | _ => true end.

Section Ops.
  Context {N T E : Type} (tix : T -> nat).

  (** a level: its operators (token and reducer) and the reducer of the rule that passes on a tighter expression *)
  Record level := mk_level { lv_fix : fixity; lv_ops : list (nat * reducer N T E); lv_pass : reducer N T E }.
  (** the levels from the loosest to the tightest, the operands, the brackets *)
  Record table := mk_table { tb_levels : list level; tb_operands : list (nat * reducer N T E); tb_open : nat; tb_close : nat; tb_brackets : reducer N T E }.

  (** ** The grammar: nonterminal [i] for level [i] *)
  Definition op_symbols (f : fixity) (i t : nat) : list (symbol nat nat unit) :=
    match f with
    | InfixLeft  => [NonTerminal i; Terminal t; NonTerminal (S i)]
    | InfixRight => [NonTerminal (S i); Terminal t; NonTerminal i]
    | InfixNone  => [NonTerminal (S i); Terminal t; NonTerminal (S i)]
    | Prefix     => [Terminal t; NonTerminal i]
    | Postfix    => [NonTerminal i; Terminal t]
    end.
  Definition level_rules (i : nat) (lv : level) : list (crule N T E) :=
    map (fun o => rule_new_raw i (op_symbols (lv_fix lv) i (fst o)) (snd o)) (lv_ops lv) ++ [rule_new_raw i [NonTerminal (S i)] (lv_pass lv)].
  Fixpoint levels_rules (i : nat) (l : list level) : list (crule N T E) :=
    match l with [] => [] | lv :: l' => level_rules i lv ++ levels_rules (S i) l' end.
  Definition table_syntax (tb : table) : syntax N T E :=
    let n := length (tb_levels tb) in
    mk_syntax (levels_rules 0 (tb_levels tb) ++ map (fun o => rule_new_raw n [Terminal (fst o)] (snd o)) (tb_operands tb) ++
               [rule_new_raw n [Terminal (tb_open tb); NonTerminal 0; Terminal (tb_close tb)] (tb_brackets tb)]) 0.

  (** The tokens that come before an operand are different from each other, and so are those that come behind one.  (The same
      token can be a prefix operator and an infix operator.) *)
  Definition ops_where (p : fixity -> bool) (tb : table) : list nat :=
    flat_map (fun lv => if p (lv_fix lv) then map fst (lv_ops lv) else []) (tb_levels tb).
  Definition proper_table (tb : table) : Prop :=
    NoDup (tb_open tb :: map fst (tb_operands tb) ++ ops_where is_prefix tb) /\
    NoDup (tb_close tb :: ops_where (fun f => negb (is_prefix f)) tb) /\
    tb_operands tb <> [].

  (** ** Expressions *)
  Inductive ast := Operand (x : T) | Brackets (l : T) (a : ast) (r : T) | Infix (a : ast) (x : T) (b : ast) | Before (x : T) (a : ast) | Behind (a : ast) (x : T).
  Fixpoint flat (a : ast) : list T :=
    match a with
    | Operand x => [x]
    | Brackets l a r => l :: flat a ++ [r]
    | Infix a x b => flat a ++ x :: flat b
    | Before x a => x :: flat a
    | Behind a x => flat a ++ [x]
    end.

  Variable tb : table.
  (** the token [x] is an operator of level [i] with fixity [f] and reducer [g] *)
  Definition operator (f : fixity) (i : nat) (x : T) (g : reducer N T E) : Prop :=
    exists lv, nth_error (tb_levels tb) i = Some lv /\ lv_fix lv = f /\ In (tix x, g) (lv_ops lv).

  (** [grouped a i]: the operator at the top of [a] has level [i], and everything is grouped as the table says: an operator has
      operands of tighter levels only; on the left of a left-associative operator, on the right of a right-associative one,
      and with unary operators also of the same level.  Operands and brackets are tighter than all operators. *)
  Inductive grouped : ast -> nat -> Prop :=
  | grouped_operand x g : In (tix x, g) (tb_operands tb) -> grouped (Operand x) (length (tb_levels tb))
  | grouped_brackets l a r i : tix l = tb_open tb -> tix r = tb_close tb -> grouped a i -> grouped (Brackets l a r) (length (tb_levels tb))
  | grouped_left a x b i j k g : operator InfixLeft i x g -> grouped a j -> i <= j -> grouped b k -> i < k -> grouped (Infix a x b) i
  | grouped_right a x b i j k g : operator InfixRight i x g -> grouped a j -> i < j -> grouped b k -> i <= k -> grouped (Infix a x b) i
  | grouped_none a x b i j k g : operator InfixNone i x g -> grouped a j -> i < j -> grouped b k -> i < k -> grouped (Infix a x b) i
  | grouped_prefix x a i j g : operator Prefix i x g -> grouped a j -> i <= j -> grouped (Before x a) i
  | grouped_postfix a x i j g : operator Postfix i x g -> grouped a j -> i <= j -> grouped (Behind a x) i.

  (** [means a i v]: the reducers along [a] give [v] for [a] as an expression of level [i] *)
  Inductive means : ast -> nat -> N -> Prop :=
  | means_operand x g v : In (tix x, g) (tb_operands tb) -> g [Terminal x] = GOk v -> means (Operand x) (length (tb_levels tb)) v
  | means_brackets l a r v' v : means a 0 v' -> tb_brackets tb [Terminal l; NonTerminal v'; Terminal r] = GOk v ->
      means (Brackets l a r) (length (tb_levels tb)) v
  | means_infix a x b f i g va vb v : operator f i x g -> is_infix f = true -> means a (match f with InfixLeft => i | _ => S i end) va ->
      means b (match f with InfixRight => i | _ => S i end) vb ->
      g [NonTerminal va; Terminal x; NonTerminal vb] = GOk v -> means (Infix a x b) i v
  | means_prefix x a i g va v : operator Prefix i x g -> means a i va -> g [Terminal x; NonTerminal va] = GOk v -> means (Before x a) i v
  | means_postfix a x i g va v : operator Postfix i x g -> means a i va -> g [NonTerminal va; Terminal x] = GOk v -> means (Behind a x) i v
  (** a tighter expression *)
  | means_pass a i lv v' v : nth_error (tb_levels tb) i = Some lv -> means a (S i) v' -> lv_pass lv [NonTerminal v'] = GOk v -> means a i v.

  (** ** Sequences that are to have a grouping
      [loose]: operators with operands, in whatever grouping *)
  Inductive loose : ast -> Prop :=
  | loose_operand x g : In (tix x, g) (tb_operands tb) -> loose (Operand x)
  | loose_brackets l a r : tix l = tb_open tb -> tix r = tb_close tb -> loose a -> loose (Brackets l a r)
  | loose_infix a x b f i g : operator f i x g -> is_infix f = true -> loose a -> loose b -> loose (Infix a x b)
  | loose_prefix x a i g : operator Prefix i x g -> loose a -> loose (Before x a)
  | loose_postfix a x i g : operator Postfix i x g -> loose a -> loose (Behind a x).
  (** a usual table: the infix operators associate, unary operators are tighter than infix ones, all prefix operators have one
      level and all postfix operators have one level *)
  Definition usual_table : Prop :=
    forall i lv, nth_error (tb_levels tb) i = Some lv ->
      lv_fix lv <> InfixNone /\
      (is_infix (lv_fix lv) = false ->
       forall j lv', i < j -> nth_error (tb_levels tb) j = Some lv' -> is_infix (lv_fix lv') = false /\ lv_fix lv' <> lv_fix lv).
End Ops.
Arguments level : clear implicits.
Arguments table : clear implicits.
