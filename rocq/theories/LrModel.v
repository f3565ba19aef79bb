(** * Model of parser/src/parser.rs: construction of the LR(1) tables.

    Ordered sets ([BTreeSet]) are sorted duplicate-free lists, hash maps are association lists with
    distinct keys.  Where the code iterates over a hash map in a way that can be observed (the
    numbering of the states, the order of the warnings), the order is an arbitrary permutation
    chosen by the environment [lr_env].  [usize] is [nat].  Loops run with fuel; [OutOfFuel] is a
    distinct outcome that the theorems exclude. *)
From Coq Require Import List Arith Lia Bool Permutation.
From Verif Require Import Lib Grammar.
Import ListNotations.

(** [StateInterop], 94 *)
Notation state := (list item) (only parsing).

(** Models [Action], parser/src/parser.rs:85-90. *)
Inductive action (S : Type) := Shift (s : S) | Reduce (r : nat) | Accept.
Arguments Shift {S} _.
Arguments Reduce {S} _.
Arguments Accept {S}.

(** Models [CalcTableWarning], parser/src/parser.rs:225-229. *)
Inductive warning :=
| WShiftReduce (st shift : state) (reduce : nat)
| WReduceReduce (st : state) (r1 r2 : nat).

(** the lookup [get] of an assoc list, with missing = default (`HashMap::get`, as in parser/src/parser.rs:212) *)
Definition aget_or {K V} (keq : K -> K -> bool) (k : K) (d : V) (m : list (K * V)) : V :=
  match aget keq k m with Some v => v | None => d end.

(** ** calc_null, 168-186 *)
(** one pass over the rules (parser/src/parser.rs:171-180) *)
Definition null_rule (a : list sym * bool) (r : rule) : list sym * bool :=
  let '(nl, up) := a in
  if mem (NT (r_lhs r)) nl then (nl, up)
  else if forallb (fun x => mem x nl) (r_rhs r) then (ins (NT (r_lhs r)) nl, true)
  else (nl, up).
(** parser/src/parser.rs:170-180 *)
Definition null_pass (rs : list rule) (nl : list sym) : list sym * bool :=
  fold_left null_rule rs (nl, false).
(** parser/src/parser.rs:170-184 *)
Definition null_step (rs : list rule) (nl : list sym) : list sym + res (list sym) :=
  let '(nl', up) := null_pass rs nl in if up then inl nl' else inr (Ok nl').
(** parser/src/parser.rs:168-186 *)
Definition calc_null (fuel : nat) (rs : list rule) : res (list sym) := loop (null_step rs) fuel [].

(** ** calc_first, 188-223 *)
(** parser/src/parser.rs:189-196: the terminals occurring in the rules *)
Definition first_init (rs : list rule) : list (sym * list term) :=
  fold_left (fun fm r => fold_left (fun fm x =>
      match x with TM t => aupd eqb x [] (ins t) fm | NT _ => fm end) (r_rhs r) fm) rs [].
(** parser/src/parser.rs:201-211: the set [update] of one rule *)
Fixpoint first_rhs (nl : list sym) (fm : list (sym * list term)) (l : list sym) (u : list term) : list term :=
  match l with
  | [] => u
  | x :: l' =>
      let u' := match aget eqb x fm with Some s => ins_all s u | None => u end in
      if mem x nl then first_rhs nl fm l' u' else u'
  end.
(** parser/src/parser.rs:212-215 *)
Definition first_rule (nl : list sym) (a : list (sym * list term) * bool) (r : rule)
  : list (sym * list term) * bool :=
  let '(fm, up) := a in
  let u := first_rhs nl fm (r_rhs r) [] in
  let old := aget_or eqb (NT (r_lhs r)) [] fm in
  (aset eqb (NT (r_lhs r)) (ins_all u old) fm, up || existsb (fun t => negb (mem t old)) u).
(** parser/src/parser.rs:198-220 *)
Definition first_step (nl : list sym) (rs : list rule) (fm : list (sym * list term))
  : list (sym * list term) + res (list (sym * list term)) :=
  let '(fm', up) := fold_left (first_rule nl) rs (fm, false) in if up then inl fm' else inr (Ok fm').
(** parser/src/parser.rs:188-223 *)
Definition calc_first (fuel : nat) (rs : list rule) (nl : list sym) : res (list (sym * list term)) :=
  loop (first_step nl rs) fuel (first_init rs).

(** ** get_first, parser/src/parser.rs:151-166 *)
Fixpoint get_first (nl : list sym) (fm : list (sym * list term)) (l : list sym) (u : list term) : list term :=
  match l with
  | [] => u
  | x :: l' =>
      let u' := match x with
                | TM t => ins t u
                | NT _ => match aget eqb x fm with Some s => ins_all s u | None => u end
                end in
      if mem x nl then get_first nl fm l' u' else u'
  end.

(** ** calc_closure, 120-149 *)
(** parser/src/parser.rs:121-124: the rules of each nonterminal *)
Definition rule_map (rs : list rule) : list (nat * list nat) :=
  fold_left (fun m ir => aupd eqb (r_lhs (snd ir)) [] (ins (fst ir)) m) (combine (seq 0 (length rs)) rs) [].

Section Closure.
  Variables (rs : list rule) (nl : list sym) (fm : list (sym * list term)).

  (** parser/src/parser.rs:127-139, one item: [syntax.rules[..]] and [rules[&non_terminal]] panic when absent *)
  Definition closure_item (rm : list (nat * list nat)) (u : list item) (it : item) : res (list item) :=
    do r <- of_opt (nth_error rs (i_rule it));
    match nth_error (r_rhs r) (i_pos it) with
    | Some (NT n) =>
        foldM (fun u la => do ks <- of_opt (aget eqb n rm);
                 Ok (ins_all (map (fun k => mk_item k 0 la) ks) u))
          (get_first nl fm (skipn (S (i_pos it)) (r_rhs r) ++ [TM (i_la it)]) []) u
    | _ => Ok u
    end.
  (** parser/src/parser.rs:125-148 *)
  Definition closure_step (rm : list (nat * list nat)) (st : state) : list item + res (list item) :=
    match foldM (closure_item rm) st [] with
    | Ok u => if existsb (fun i => negb (mem i st)) u then inl (ins_all u st) else inr (Ok (ins_all u st))
    | Panic => inr Panic
    | OutOfFuel => inr OutOfFuel
    end.
  (** parser/src/parser.rs:120-149 *)
  Definition calc_closure (fuel : nat) (st : state) : res state :=
    loop (closure_step (rule_map rs)) fuel st.

  (** ** calc_goto, 103-118 *)
  (** parser/src/parser.rs:104-113: the kernels, in the order of first insertion *)
  Definition goto_item (g : list (sym * state)) (it : item) : res (list (sym * state)) :=
    do r <- of_opt (nth_error rs (i_rule it));
    match nth_error (r_rhs r) (i_pos it) with
    | Some x => Ok (aupd eqb x [] (ins (mk_item (i_rule it) (S (i_pos it)) (i_la it))) g)
    | None => Ok g
    end.
  (** parser/src/parser.rs:114-117: each set is closed on its own, so the order in which the hash map is walked is
      irrelevant *)
  Definition calc_goto (fuel : nat) (st : state) : res (list (sym * state)) :=
    do g <- foldM goto_item st [];
    mapM (fun xs => do c <- calc_closure fuel (snd xs); Ok (fst xs, c)) g.

  (** ** calc_all_goto, parser/src/parser.rs:277-292; [ord] is the order in which [goto.values()] are enumerated *)
  Definition all_step (ord : list (sym * state) -> list (sym * state)) (fuel : nat)
      (qs : list state * list (state * list (sym * state)))
    : (list state * list (state * list (sym * state))) + res (list (state * list (sym * state))) :=
    match fst qs with
    | [] => inr (Ok (snd qs))
    | st :: q =>
        match aget list_eqb st (snd qs) with
        | Some _ => inl (q, snd qs)
        | None =>
            match calc_goto fuel st with
            | Ok g => inl (q ++ map snd (ord g), snd qs ++ [(st, g)])
            | Panic => inr Panic
            | OutOfFuel => inr OutOfFuel
            end
        end
    end.
  (** parser/src/parser.rs:277-292 *)
  Definition calc_all_goto (ord : list (sym * state) -> list (sym * state)) (fuel : nat) (st : state)
    : res (list (state * list (sym * state))) :=
    loop (all_step ord fuel) fuel ([st], []).
End Closure.

(** ** calc_table, 231-275 *)
(** parser/src/parser.rs:238-247: the row before the reductions *)
Definition row_shifts (g : list (sym * state)) : list (term * action state) * list (nat * state) :=
  fold_left (fun ag xs =>
    match fst xs with
    | NT n => (fst ag, aset eqb n (snd xs) (snd ag))
    | TM t => (aset eqb t (Shift (snd xs)) (fst ag), snd ag)
    end) g ([], []).
(** parser/src/parser.rs:249-268, one item; [rules[item.rule]] panics when absent, [Some(Accept)] is [unreachable!()] *)
Definition row_item (rs : list rule) (sr : nat) (st : state)
    (aw : list (term * action state) * list warning) (it : item)
  : res (list (term * action state) * list warning) :=
  let '(a, w) := aw in
  do r <- of_opt (nth_error rs (i_rule it));
  if Nat.eqb (i_pos it) (length (r_rhs r)) then
    if Nat.eqb (i_rule it) sr then Ok (aset eqb TEoi Accept a, w)
    else match aget eqb (i_la it) a with
         | None => Ok (aset eqb (i_la it) (Reduce (i_rule it)) a, w)
         | Some (Shift s) => Ok (a, w ++ [WShiftReduce st s (i_rule it)])
         | Some (Reduce k) => Ok (a, w ++ [WReduceReduce st k (i_rule it)])
         | Some Accept => Panic
         end
  else Ok (a, w).

(** the variables of parser/src/parser.rs:232-234 *)
Record tables := mk_tables {
  tb_action : list (state * list (term * action state));
  tb_goto : list (state * list (nat * state));
  tb_warn : list warning }.

(** parser/src/parser.rs:235-273, one state *)
Definition table_state (rs : list rule) (sr : nat) (tb : tables) (sg : state * list (sym * state)) : res tables :=
  let '(st, g) := sg in
  let '(a0, go) := row_shifts g in
  do aw <- foldM (row_item rs sr st) st (a0, tb_warn tb);
  Ok (mk_tables (aset list_eqb st (fst aw) (tb_action tb))
        (match go with [] => tb_goto tb | _ => aset list_eqb st go (tb_goto tb) end)
        (snd aw)).
(** parser/src/parser.rs:231-275 *)
Definition calc_table (rs : list rule) (sr : nat) (sl : list (state * list (sym * state))) : res tables :=
  foldM (table_state rs sr) sl (mk_tables [] [] []).

(** ** calc_error_rules, parser/src/parser.rs:294-309 *)
Definition error_item (rs : list rule) (u : list nat) (it : item) : res (list nat) :=
  do r <- of_opt (nth_error rs (i_rule it));
  match nth_error (r_rhs r) (i_pos it) with
  | Some (TM TErr) => Ok (ins (i_rule it) u)
  | _ => Ok u
  end.
(** parser/src/parser.rs:296-307 *)
Definition error_state (rs : list rule) (m : list (nat * list nat)) (si : state * nat) : res (list (nat * list nat)) :=
  do u <- foldM (error_item rs) (fst si) [];
  match u with [] => Ok m | _ => Ok (aset eqb (snd si) u m) end.
(** parser/src/parser.rs:294-309 *)
Definition calc_error_rules (rs : list rule) (si : list (state * nat)) : res (list (nat * list nat)) :=
  foldM (error_state rs) si [].

(** ** LR1Parser, parser/src/parser.rs:311-318; the reducers are kept apart (ParseModel.v) *)
Record lr_parser := mk_parser {
  p_rules : list rule;
  p_action : list (nat * list (term * action nat));
  p_goto : list (nat * list (nat * nat));
  p_errors : list (nat * list nat);
  p_start : nat }.

(** The orders in which the hash maps are walked: [goto.values()] (286), [state_list.keys()] (343)
    and [for .. in state_list] (235), parser/src/parser.rs:235, 286, 343. *)
Record lr_env := mk_lr_env {
  le_values : list (sym * state) -> list (sym * state);
  le_keys : list (state * list (sym * state)) -> list (state * list (sym * state));
  le_into : list (state * list (sym * state)) -> list (state * list (sym * state)) }.

(** every entry is visited once, parser/src/parser.rs:235, 286, 343 *)
Definition lr_env_ok (e : lr_env) : Prop :=
  (forall l, Permutation l (le_values e l)) /\
  (forall l, Permutation l (le_keys e l)) /\
  (forall l, Permutation l (le_into e l)).

(** parser/src/parser.rs:322-333: the smallest number that is not a nonterminal of the rules.  The unbounded range
    [(0..)] is cut at one more than the number of nonterminals, by then a number has been found. *)
Definition sym_nts (l : list sym) : list nat := flat_map (fun x => match x with NT n => [n] | TM _ => [] end) l.
(** parser/src/parser.rs:322-331 *)
Definition nonterminals (rs : list rule) : list nat :=
  fold_left (fun s r => ins_all (sym_nts (r_rhs r)) (ins (r_lhs r) s)) rs [].
(** parser/src/parser.rs:332-333 *)
Definition start_symbol (rs : list rule) : res nat :=
  let nts := nonterminals rs in
  of_opt (find (fun i => negb (mem i nts)) (seq 0 (S (length nts)))).

(** parser/src/parser.rs:346-366: the rows renumbered *)
Definition number_action (ix : state -> option nat) (a : action state) : res (action nat) :=
  match a with
  | Shift s => do i <- of_opt (ix s); Ok (Shift i)
  | Reduce r => Ok (Reduce r)
  | Accept => Ok Accept
  end.
(** parser/src/parser.rs:346-366 *)
Definition number_row {K A B} (f : A -> res B) (row : list (K * A)) : res (list (K * B)) :=
  mapM (fun ka => do b <- f (snd ka); Ok (fst ka, b)) row.
(** parser/src/parser.rs:346-366 *)
Definition number_table {A B} (ix : state -> option nat) (f : A -> res B) (t : list (state * A)) : res (list (nat * B)) :=
  mapM (fun sa => do i <- of_opt (ix (fst sa)); do b <- f (snd sa); Ok (i, b)) t.

(** Models [LR1Parser::new], parser/src/parser.rs:321-390 (and [From], 393-397, which drops the warnings). *)
Definition lr_new (e : lr_env) (fuel : nat) (rules : list rule) (start : nat) : res (lr_parser * list warning) :=
  do ss <- start_symbol rules;
  let sr := length rules in
  let rs := rules ++ [mk_rule ss [NT start]] in
  do nl <- calc_null fuel rs;
  do fm <- calc_first fuel rs nl;
  do s0 <- calc_closure rs nl fm fuel [mk_item sr 0 TEoi];
  do sl <- calc_all_goto rs nl fm (le_values e) fuel s0;
  let keys := map fst (le_keys e sl) in
  let ix := fun s => index_of list_eqb s keys in
  do tb <- calc_table rs sr (le_into e sl);
  do act <- number_table ix (number_row (number_action ix)) (tb_action tb);
  do go <- number_table ix (number_row (fun s => of_opt (ix s))) (tb_goto tb);
  do errs <- calc_error_rules rs (combine keys (seq 0 (length keys)));
  do i0 <- of_opt (ix s0);
  Ok (mk_parser rs act go errs i0, tb_warn tb).
