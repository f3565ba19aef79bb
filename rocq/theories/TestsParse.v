(** * The repository's own tests of the parser half, run on the model.

    These are tests of the model, not theorems about it: every assertion of the unit tests in
    parser/src/syntax.rs, parser/src/parser.rs, parser/src/iter.rs and of
    parser_generator/tests/main.rs is evaluated on the model and gives the result the test expects of
    the program.  (The expected tables were converted from the Rust sources by a script.) *)
From Coq Require Import List Arith Bool String.
From Verif Require Import Lib Grammar LrModel LrTop ParseModel ParseExamples GenModel.
Import ListNotations.
Local Open Scope list_scope.

(** ** parser/src/syntax.rs 208-255, [syntax]: N and T are [A, B, C] = 0, 1, 2 *)
Definition no_gen : reducer nat tk nat := fun _ => GPanic.
Definition rb (n : nat) := rb_new (N := nat) nix0 n.
Definition nt (b : rule_builder) (n : nat) := rb_non_terminal (N := nat) nix0 b n.
Definition tm (b : rule_builder) (t : nat) := rb_terminal tkix b (t, 0).
Definition er (b : rule_builder) := rb_error b.
Definition mk (b : rule_builder) : crule nat tk nat := rb_build b no_gen.
Definition stx_of (l : list (crule nat tk nat)) (start : nat) : stx := sb_build nix0 (fold_left sb_rule l sb_new) start.

Definition syntax1 : stx := stx_of [ mk (tm (nt (nt (rb 0) 1) 2) 0); mk (tm (nt (rb 0) 2) 1); mk (nt (rb 1) 2); mk (tm (rb 2) 2) ] 0.
Example syntax_1 : sx_start syntax1 = 0 /\ map (fun r => (r_lhs (cr_rule r), r_rhs (cr_rule r))) (sx_rules syntax1) =
  [ (0, [NT 1; NT 2; TM (TSym 0)]); (0, [NT 2; TM (TSym 1)]); (1, [NT 2]); (2, [TM (TSym 2)]) ].
Proof. split; reflexivity. Qed.
Definition syntax2 : stx := stx_of [ mk (tm (nt (er (rb 0)) 2) 0); mk (er (nt (rb 0) 2)); mk (nt (rb 1) 2); mk (tm (rb 2) 2) ] 0.
Example syntax_2 : sx_start syntax2 = 0 /\ map (fun r => (r_lhs (cr_rule r), r_rhs (cr_rule r))) (sx_rules syntax2) =
  [ (0, [TM TErr; NT 2; TM (TSym 0)]); (0, [NT 2; TM TErr]); (1, [NT 2]); (2, [TM (TSym 2)]) ].
Proof. split; reflexivity. Qed.

(** ** parser/src/parser.rs 412-460, [null] and [first] *)
Definition rules_of (s : stx) : list rule := map cr_rule (sx_rules s).
Definition nf : list rule := rules_of (stx_of
  [ mk (tm (nt (nt (rb 0) 1) 2) 0); mk (tm (nt (rb 0) 2) 1); mk (nt (rb 1) 2); mk (nt (rb 1) 0); mk (rb 2) ] 0).
Definition ok_or {A} (d : A) (r : res A) : A := match r with Ok a => a | _ => d end.
Definition null_of (rs : list rule) : list sym := ok_or [] (calc_null 20 rs).
Definition first_of (rs : list rule) : list (sym * list term) := ok_or [] (calc_first 20 rs (null_of rs)).
Example null_test : calc_null 20 nf = Ok (to_set [NT 2; NT 1]).
Proof. reflexivity. Qed.
Example first_test :
  aget eqb (NT 0) (first_of nf) = Some (to_set [TSym 0; TSym 1]) /\ aget eqb (NT 1) (first_of nf) = Some (to_set [TSym 0; TSym 1]) /\
  aget eqb (NT 2) (first_of nf) = Some [] /\
  aget eqb (TM (TSym 0)) (first_of nf) = Some [TSym 0] /\ aget eqb (TM (TSym 1)) (first_of nf) = Some [TSym 1].
Proof. repeat split; reflexivity. Qed.

(** ** parser/src/parser.rs 463-660, [closure]: E, T, F = 0, 1, 2; Plus, Star, Bracket, CloseBracket, I = 0 .. 4 *)
Definition etf_rules : list (crule nat tk nat) :=
  [ mk (nt (tm (nt (rb 0) 0) 0) 1); mk (nt (rb 0) 1); mk (nt (tm (nt (rb 1) 1) 1) 2); mk (nt (rb 1) 2);
    mk (tm (nt (tm (rb 2) 2) 0) 3); mk (tm (rb 2) 4) ].
Definition etf : stx := stx_of etf_rules 0.
Definition etf_aug : list rule := rules_of etf ++ [mk_rule 3 [NT 0]].
Example closure_1 : calc_closure etf_aug (null_of etf_aug) (first_of etf_aug) 20 [mk_item 6 0 TEoi] = Ok (to_set
    [ mk_item 6 0 TEoi;
      mk_item 0 0 TEoi;
      mk_item 0 0 (TSym 0);
      mk_item 1 0 TEoi;
      mk_item 1 0 (TSym 0);
      mk_item 2 0 TEoi;
      mk_item 2 0 (TSym 0);
      mk_item 2 0 (TSym 1);
      mk_item 3 0 TEoi;
      mk_item 3 0 (TSym 0);
      mk_item 3 0 (TSym 1);
      mk_item 4 0 TEoi;
      mk_item 4 0 (TSym 0);
      mk_item 4 0 (TSym 1);
      mk_item 5 0 TEoi;
      mk_item 5 0 (TSym 0);
      mk_item 5 0 (TSym 1) ]).
Proof. vm_compute. reflexivity. Qed.
Definition abc : list rule := rules_of (stx_of
  [ mk (tm (nt (nt (rb 0) 1) 2) 0); mk (tm (nt (rb 0) 2) 1); mk (nt (rb 1) 2); mk (nt (rb 1) 0); mk (tm (rb 2) 2); mk (rb 2) ] 0).
Definition abc_closure : res (list item) := calc_closure abc (null_of abc) (first_of abc) 20 [mk_item 0 0 TEoi].
Example closure_2 : abc_closure = Ok (to_set
    [ mk_item 0 0 TEoi;
      mk_item 0 0 (TSym 0);
      mk_item 0 0 (TSym 2);
      mk_item 1 0 (TSym 0);
      mk_item 1 0 (TSym 2);
      mk_item 2 0 (TSym 0);
      mk_item 2 0 (TSym 2);
      mk_item 3 0 (TSym 0);
      mk_item 3 0 (TSym 2);
      mk_item 4 0 (TSym 0);
      mk_item 4 0 (TSym 1);
      mk_item 4 0 (TSym 2);
      mk_item 5 0 (TSym 0);
      mk_item 5 0 (TSym 1);
      mk_item 5 0 (TSym 2) ]).
Proof. vm_compute. reflexivity. Qed.

(** ** parser/src/parser.rs 663-790, [goto] *)
Definition abc_goto : list (sym * list item) := ok_or [] (calc_goto abc (null_of abc) (first_of abc) 20 (ok_or [] abc_closure)).
Example goto_test : length abc_goto = 4 /\
  aget eqb (TM (TSym 2)) abc_goto = Some (to_set
    [ mk_item 4 1 (TSym 0);
      mk_item 4 1 (TSym 1);
      mk_item 4 1 (TSym 2) ]) /\
  aget eqb (NT 0) abc_goto = Some (to_set
    [ mk_item 3 1 (TSym 0);
      mk_item 3 1 (TSym 2) ]) /\
  aget eqb (NT 1) abc_goto = Some (to_set
    [ mk_item 0 1 TEoi;
      mk_item 0 1 (TSym 0);
      mk_item 0 1 (TSym 2);
      mk_item 4 0 (TSym 0);
      mk_item 5 0 (TSym 0) ]) /\
  aget eqb (NT 2) abc_goto = Some (to_set
    [ mk_item 1 1 (TSym 0);
      mk_item 1 1 (TSym 2);
      mk_item 2 1 (TSym 0);
      mk_item 2 1 (TSym 2) ]).
Proof. repeat split; vm_compute; reflexivity. Qed.

(** ** parser/src/parser.rs 793-881, [parser_isomorphisms].  Stricter than the test: the rows have to
    have the same entries (the test looks at those of the first parser only), the numbering has to be
    one to one, and the error rules have to agree (the test does not compare them). *)
Definition same_action (m : list (nat * nat)) (a b : action nat) : bool :=
  match a, b with
  | Shift i, Shift j => match aget Nat.eqb i m with Some j' => j =? j' | None => false end
  | Reduce r, Reduce r' => r =? r'
  | Accept, Accept => true
  | _, _ => false
  end.
Definition targets (p q : lr_parser) (ij : nat * nat) : list (nat * nat) :=
  flat_map (fun ta => match snd ta, aget eqb (fst ta) (aget_or Nat.eqb (snd ij) [] (p_action q)) with
                      | Shift i, Some (Shift j) => [(i, j)] | _, _ => [] end) (aget_or Nat.eqb (fst ij) [] (p_action p)) ++
  flat_map (fun na => match aget Nat.eqb (fst na) (aget_or Nat.eqb (snd ij) [] (p_goto q)) with
                      | Some j => [(snd na, j)] | _ => [] end) (aget_or Nat.eqb (fst ij) [] (p_goto p)).
Fixpoint explore (p q : lr_parser) (fuel : nat) (todo m : list (nat * nat)) : list (nat * nat) :=
  match fuel, todo with
  | S fuel', ij :: todo' =>
      match aget Nat.eqb (fst ij) m with
      | Some _ => explore p q fuel' todo' m
      | None => explore p q fuel' (todo' ++ targets p q ij) (ij :: m)
      end
  | _, _ => m
  end.
Definition same_row (m : list (nat * nat)) (a b : list (term * action nat)) : bool :=
  (length a =? length b) && forallb (fun ta => match aget eqb (fst ta) b with Some x => same_action m (snd ta) x | None => false end) a.
Definition same_goto (m : list (nat * nat)) (a b : list (nat * nat)) : bool :=
  (length a =? length b) && forallb (fun na =>
    match aget Nat.eqb (fst na) b, aget Nat.eqb (snd na) m with Some x, Some y => x =? y | _, _ => false end) a.
Definition isomorphic (p q : lr_parser) : bool :=
  let m := explore p q 500 [(p_start p, p_start q)] [] in
  (length (p_action p) =? length (p_action q)) && (length m =? length (p_action p)) &&
  (length (to_set (map snd m)) =? length m) && (length (p_goto p) =? length (p_goto q)) && (length (p_errors p) =? length (p_errors q)) &&
  forallb (fun ij => same_row m (aget_or Nat.eqb (fst ij) [] (p_action p)) (aget_or Nat.eqb (snd ij) [] (p_action q)) &&
                     same_goto m (aget_or Nat.eqb (fst ij) [] (p_goto p)) (aget_or Nat.eqb (snd ij) [] (p_goto q)) &&
                     list_eqb (aget_or Nat.eqb (fst ij) [] (p_errors p)) (aget_or Nat.eqb (snd ij) [] (p_errors q))) m.

(** ** parser/src/parser.rs 884-1116, [construct_parser] *)
Definition expect1 : lr_parser := mk_parser []
    [ (0, [(TSym 2, Shift 4); (TSym 4, Shift 5)]);
      (1, [(TSym 0, Shift 6); (TEoi, Accept)]);
      (2, [(TSym 1, Shift 7); (TEoi, Reduce 1); (TSym 0, Reduce 1)]);
      (3, [(TEoi, Reduce 3); (TSym 0, Reduce 3); (TSym 1, Reduce 3)]);
      (4, [(TSym 2, Shift 12); (TSym 4, Shift 13)]);
      (5, [(TEoi, Reduce 5); (TSym 0, Reduce 5); (TSym 1, Reduce 5)]);
      (6, [(TSym 2, Shift 4); (TSym 4, Shift 5)]);
      (7, [(TSym 2, Shift 4); (TSym 4, Shift 5)]);
      (8, [(TSym 3, Shift 16); (TSym 0, Shift 11)]);
      (9, [(TSym 3, Reduce 1); (TSym 0, Reduce 1); (TSym 1, Shift 17)]);
      (10, [(TSym 3, Reduce 3); (TSym 0, Reduce 3); (TSym 1, Reduce 3)]);
      (11, [(TSym 2, Shift 12); (TSym 4, Shift 13)]);
      (12, [(TSym 2, Shift 12); (TSym 4, Shift 13)]);
      (13, [(TSym 3, Reduce 5); (TSym 0, Reduce 5); (TSym 1, Reduce 5)]);
      (14, [(TEoi, Reduce 0); (TSym 0, Reduce 0); (TSym 1, Shift 7)]);
      (15, [(TEoi, Reduce 2); (TSym 0, Reduce 2); (TSym 1, Reduce 2)]);
      (16, [(TEoi, Reduce 4); (TSym 0, Reduce 4); (TSym 1, Reduce 4)]);
      (17, [(TSym 2, Shift 12); (TSym 4, Shift 13)]);
      (18, [(TSym 3, Reduce 0); (TSym 0, Reduce 0); (TSym 1, Shift 17)]);
      (19, [(TSym 3, Shift 21); (TSym 0, Shift 11)]);
      (20, [(TSym 3, Reduce 2); (TSym 0, Reduce 2); (TSym 1, Reduce 2)]);
      (21, [(TSym 3, Reduce 4); (TSym 0, Reduce 4); (TSym 1, Reduce 4)]) ]
    [ (0, [(0, 1); (1, 2); (2, 3)]);
      (4, [(0, 8); (1, 9); (2, 10)]);
      (6, [(1, 14); (2, 3)]);
      (7, [(2, 15)]);
      (11, [(1, 18); (2, 10)]);
      (12, [(0, 19); (1, 9); (2, 10)]);
      (17, [(2, 20)]) ]
    [] 0.

Example construct_parser_1 : isomorphic (pr_tab (fst (build env0 etf))) expect1 = true /\ isomorphic (pr_tab (fst (build env1 etf))) expect1 = true.
Proof. split; vm_compute; reflexivity. Qed.
Definition with_error : stx := stx_of
  [ mk (nt (tm (nt (rb 0) 0) 0) 1); mk (nt (rb 0) 1); mk (tm (rb 1) 4); mk (tm (nt (tm (rb 1) 2) 0) 3); mk (tm (er (tm (rb 1) 2)) 3) ] 0.
Definition expect2 : lr_parser := mk_parser []
    [ (0, [(TSym 2, Shift 1); (TSym 4, Shift 2)]);
      (1, [(TSym 2, Shift 5); (TSym 4, Shift 6); (TErr, Shift 7)]);
      (2, [(TSym 0, Reduce 2); (TEoi, Reduce 2)]);
      (3, [(TSym 0, Shift 10); (TEoi, Accept)]);
      (4, [(TSym 0, Reduce 1); (TEoi, Reduce 1)]);
      (5, [(TSym 2, Shift 5); (TSym 4, Shift 6); (TErr, Shift 11)]);
      (6, [(TSym 3, Reduce 2); (TSym 0, Reduce 2)]);
      (7, [(TSym 3, Shift 13)]);
      (8, [(TSym 3, Shift 14); (TSym 0, Shift 15)]);
      (9, [(TSym 3, Reduce 1); (TSym 0, Reduce 1)]);
      (10, [(TSym 2, Shift 1); (TSym 4, Shift 2)]);
      (11, [(TSym 3, Shift 17)]);
      (12, [(TSym 3, Shift 18); (TSym 0, Shift 15)]);
      (13, [(TSym 0, Reduce 4); (TEoi, Reduce 4)]);
      (14, [(TSym 0, Reduce 3); (TEoi, Reduce 3)]);
      (15, [(TSym 2, Shift 5); (TSym 4, Shift 6)]);
      (16, [(TSym 0, Reduce 0); (TEoi, Reduce 0)]);
      (17, [(TSym 3, Reduce 4); (TSym 0, Reduce 4)]);
      (18, [(TSym 3, Reduce 3); (TSym 0, Reduce 3)]);
      (19, [(TSym 3, Reduce 0); (TSym 0, Reduce 0)]) ]
    [ (0, [(0, 3); (1, 4)]);
      (1, [(0, 8); (1, 9)]);
      (5, [(0, 12); (1, 9)]);
      (10, [(1, 16)]);
      (15, [(1, 19)]) ]
    [(1, [4]); (5, [4])] 0.

Example construct_parser_2 : isomorphic (pr_tab (fst (build env0 with_error))) expect2 = true /\ isomorphic (pr_tab (fst (build env1 with_error))) expect2 = true.
Proof. split; vm_compute; reflexivity. Qed.
(** the comparison can fail *)
Example isomorphic_fails : isomorphic expect1 expect2 = false.
Proof. vm_compute. reflexivity. Qed.

(** ** parser/src/iter.rs 184-227, [parse] *)
Inductive terminal1 := Number (n : nat) | Plus1 | Star1.
Definition tix1 (t : terminal1) : nat := match t with Number _ => 0 | Plus1 => 1 | Star1 => 2 end.
Inductive value1 := VE (l : list value1) | VT (l : list value1) | VF (t : terminal1).
Definition nix1 (v : value1) : nat := match v with VE _ => 0 | VT _ => 1 | VF _ => 2 end.
Definition red1 (E : Type) := reducer value1 terminal1 E.
Definition g_add {E} : red1 E := fun l => match l with [NonTerminal (VE v); _; NonTerminal (VT w)] => GOk (VE (v ++ [VT w])) | _ => GPanic end.
Definition g_t {E} : red1 E := fun l => match l with [NonTerminal (VT v)] => GOk (VE [VT v]) | _ => GPanic end.
Definition g_mul {E} : red1 E := fun l => match l with [NonTerminal (VT v); _; NonTerminal f] => GOk (VT (v ++ [f])) | _ => GPanic end.
Definition g_f {E} : red1 E := fun l => match l with [NonTerminal f] => GOk (VT [f]) | _ => GPanic end.
Definition g_n {E} : red1 E := fun l => match l with [Terminal n] => GOk (VF n) | _ => GPanic end.
Definition parse_syntax : syntax value1 terminal1 unit := sb_build nix1 (fold_left sb_rule
  [ rule_new nix1 tix1 (VE []) [NonTerminal (VE []); Terminal Plus1; NonTerminal (VT [])] g_add;
    rule_new nix1 tix1 (VE []) [NonTerminal (VT [])] g_t;
    rule_new nix1 tix1 (VT []) [NonTerminal (VT []); Terminal Star1; NonTerminal (VF Plus1)] g_mul;
    rule_new nix1 tix1 (VT []) [NonTerminal (VF Plus1)] g_f;
    rule_new nix1 tix1 (VF Plus1) [Terminal (Number 0)] g_n ] sb_new) (VE []).
Definition run {N T E} (tix : T -> nat) (s : syntax N T E) (w : list T) : res (outcome N E) :=
  do pw <- lr1_new env0 200 s; parse tix (fst pw) 500 w.
Definition text1 : list terminal1 := [Number 1; Plus1; Number 2; Star1; Number 3; Plus1; Number 4].
Definition tree1 : value1 := VE [VT [VF (Number 1)]; VT [VF (Number 2); VF (Number 3)]; VT [VF (Number 4)]].
Example parse_test : run tix1 parse_syntax text1 = Ok (ROk tree1).
Proof. vm_compute. reflexivity. Qed.

(** ** parser/src/iter.rs 230-325, [parse_error] *)
Inductive terminal2 := Plus | Star | Bracket | CloseBracket | I (n : nat).
Definition tix2 (t : terminal2) : nat := match t with Plus => 0 | Star => 1 | Bracket => 2 | CloseBracket => 3 | I _ => 4 end.
Inductive value2 := Add (l : list value2) | Prod (l : list value2) | Item (u : union2)
with union2 := UNumber (n : nat) | UNon (v : value2) | UError (l : list terminal2).
Definition nix2 (v : value2) : nat := match v with Add _ => 0 | Prod _ => 1 | Item _ => 2 end.
Definition red2 := reducer value2 terminal2 unit.
Definition i0 : value2 := Item (UError []).
Definition error_syntax : syntax value2 terminal2 unit := sb_build nix2 (fold_left sb_rule
  [ rule_new nix2 tix2 (Add []) [NonTerminal (Add []); Terminal Plus; NonTerminal (Prod [])]
      ((fun l => match l with [NonTerminal (Add v); _; NonTerminal t] => GOk (Add (v ++ [t])) | _ => GPanic end) : red2);
    rule_new nix2 tix2 (Add []) [ErrorSym tt; Terminal Plus; NonTerminal (Prod [])]
      ((fun l => match l with [ErrorSym e; _; NonTerminal t] => GOk (Add [Item (UError e); t]) | _ => GPanic end) : red2);
    rule_new nix2 tix2 (Add []) [ErrorSym tt; Terminal Plus; ErrorSym tt]
      ((fun l => match l with [ErrorSym e1; _; ErrorSym e2] => GOk (Add [Item (UError (e1 ++ e2))]) | _ => GPanic end) : red2);
    rule_new nix2 tix2 (Add []) [NonTerminal (Prod [])]
      ((fun l => match l with [NonTerminal t] => GOk (Add [t]) | _ => GPanic end) : red2);
    rule_new nix2 tix2 (Prod []) [NonTerminal (Prod []); Terminal Star; NonTerminal i0]
      ((fun l => match l with [NonTerminal (Prod v); _; NonTerminal f] => GOk (Prod (v ++ [f])) | _ => GPanic end) : red2);
    rule_new nix2 tix2 (Prod []) [NonTerminal i0]
      ((fun l => match l with [NonTerminal n] => GOk (Prod [n]) | _ => GPanic end) : red2);
    rule_new nix2 tix2 i0 [Terminal Bracket; NonTerminal (Add []); Terminal CloseBracket]
      ((fun l => match l with [_; NonTerminal e; _] => GOk (Item (UNon e)) | _ => GPanic end) : red2);
    rule_new nix2 tix2 i0 [Terminal Bracket; ErrorSym tt; Terminal CloseBracket]
      ((fun l => match l with [_; ErrorSym e; _] => GOk (Item (UError e)) | _ => GPanic end) : red2);
    rule_new nix2 tix2 i0 [Terminal (I 0)]
      ((fun l => match l with [Terminal (I n)] => GOk (Item (UNumber n)) | _ => GPanic end) : red2) ] sb_new) (Add []).
Definition num (n : nat) : value2 := Item (UNumber n).
Example parse_error_1 : run tix2 error_syntax [I 1; Plus; I 2; Star; Bracket; I 3; Plus; I 4; CloseBracket] =
  Ok (ROk (Add [Prod [num 1]; Prod [num 2; Item (UNon (Add [Prod [num 3]; Prod [num 4]]))]])).
Proof. vm_compute. reflexivity. Qed.
Example parse_error_2 : run tix2 error_syntax [I 1; Plus; I 2; Star; Bracket; I 3; CloseBracket] =
  Ok (ROk (Add [Prod [num 1]; Prod [num 2; Item (UNon (Add [Prod [num 3]]))]])).
Proof. vm_compute. reflexivity. Qed.
Example parse_error_3 : run tix2 error_syntax [I 1; Plus; I 2; Star; Bracket; I 3; I 4; CloseBracket] =
  Ok (ROk (Add [Prod [num 1]; Prod [num 2; Item (UError [I 3; I 4])]])).
Proof. vm_compute. reflexivity. Qed.
Example parse_error_4 : run tix2 error_syntax [I 1; Plus; Bracket; I 2; I 3; CloseBracket; Star; I 4] =
  Ok (ROk (Add [Prod [num 1]; Prod [Item (UError [I 2; I 3]); num 4]])).
Proof. vm_compute. reflexivity. Qed.
Example parse_error_5 : run tix2 error_syntax [Plus; I 2; Star; Bracket; I 3; CloseBracket] =
  Ok (ROk (Add [Item (UError [Plus]); Prod [num 2; Item (UNon (Add [Prod [num 3]]))]])).
Proof. vm_compute. reflexivity. Qed.
Example parse_error_6 : run tix2 error_syntax [I 1; Plus; I 2; Star; Bracket; I 3] = Ok RNotFound.
Proof. vm_compute. reflexivity. Qed.

(** ** parser_generator/tests/main.rs 53-59, [test_parser_generator].  The user error is the list in the
    message; the test compares its formatting. *)
Local Open Scope string_scope.
Definition macro_input : minput value1 terminal1 (list terminal1) := mk_minput
  [(KNamed "Number", Number 0); (KRaw "+", Plus1); (KRaw "*", Star1)]
  [("E", VE []); ("T", VT []); ("F", VF Plus1)] "E"
  [ mk_bnf (Named "E") [BNonTerminal "E"; BTerminal (KRaw "+"); BNonTerminal "T"] g_add;
    mk_bnf (Named "E") [BNonTerminal "T"] g_t;
    mk_bnf (Named "T") [BNonTerminal "T"; BTerminal (KRaw "*"); BNonTerminal "F"] g_mul;
    mk_bnf (Named "T") [BNonTerminal "F"] g_f;
    mk_bnf (Named "F") [BTerminal (KNamed "Number")] g_n;
    mk_bnf (Named "F") [BError] (fun l => match l with [ErrorSym e] => GErr e | _ => GPanic end) ].
Local Close Scope string_scope.
Definition in_order : gen_env := mk_gen_env (fun m => m) (fun m => m) (fun m => m) (fun m => m) (fun m => m) (fun m => m).
Definition run_macro (w : list terminal1) : res (outcome value1 (list terminal1)) :=
  do kp <- expand env1 100 macro_input; do p <- generated nix1 tix1 in_order macro_input (fst kp) (snd kp); parse tix1 p 500 w.
Example parser_generator_1 : run_macro text1 = Ok (ROk tree1).
Proof. vm_compute. reflexivity. Qed.
Example parser_generator_2 : run_macro [Number 1; Plus1; Plus1; Star1; Number 3; Plus1; Number 4] = Ok (RReducer [Plus1]).
Proof. vm_compute. reflexivity. Qed.
