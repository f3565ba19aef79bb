(** * The repository's own tests of the tokenizer half, run on the model.

    These are tests of the model, not theorems about it: every assertion of the unit tests in
    tokenizer/src/nfa.rs, tokenizer/src/dfa.rs, tokenizer/src/lib.rs, tokenizer/src/tokenizer/iter.rs and
    of tokenizer_generator/tests is evaluated on the model and gives the result the test expects of the
    program.  (The expected automata were converted from the Rust sources by a script.)  Where a test
    gives a pattern as text, the expression that regex_syntax makes of it is written out by hand. *)
From Coq Require Import List Arith NArith Bool Ascii String.
From Verif Require Import Lib Hir NfaModel DfaModel MinModel TokModel TokExamples TraitModel.
Import ListNotations.
Local Open Scope list_scope.

(** ** tokenizer/src/nfa.rs 475-492, [construct_tokenizer_nfa] *)
Example construct_tokenizer_nfa : tnfa_of [HLitU 97; HLitU 99; HLitU 101] = NOk (mk_tnfa
  [ mk_nnode [] [((97, 98)%N, [1])]; mk_nnode [] []; mk_nnode [] [((99, 100)%N, [3])]; mk_nnode [] [];
    mk_nnode [] [((101, 102)%N, [5])]; mk_nnode [] []; mk_nnode [0; 2; 4] [] ] 6 [1; 3; 5]).
Proof. reflexivity. Qed.

(** ** tokenizer/src/nfa.rs 495-712, [construct_nfa]; [to_index] numbers the nodes by their position *)
Definition to_index (k : hir) : nres (list nnode * nat * nat) := ndo (h, n) <- nfa_of k []; embed h n 0.
Example nfa_1 : to_index (HEmpty) = NOk
  ([mk_nnode [0] [((0, 1114112)%N, [0])]], 0, 0).
Proof. reflexivity. Qed.
Example nfa_2 : to_index (HLitU 97) = NOk
  ([mk_nnode [] [((97, 98)%N, [1])]; mk_nnode [] []], 0, 1).
Proof. reflexivity. Qed.
Example nfa_3 : to_index (HClassU [(48, 51); (97, 99)]%N) = NOk
  ([mk_nnode [] [((48, 52)%N, [1]); ((97, 100)%N, [1])]; mk_nnode [] []], 0, 1).
Proof. reflexivity. Qed.
Example nfa_4 : to_index (HConcat [HLitU 97; HLitU 98]) = NOk
  ([mk_nnode [] [((98, 99)%N, [1])]; mk_nnode [] []; mk_nnode [] [((97, 98)%N, [3])]; mk_nnode [0] []], 2, 1).
Proof. reflexivity. Qed.
Example nfa_5 : to_index (HConcat [HLitU 97; HLitU 98; HLitU 99]) = NOk
  ([mk_nnode [] [((99, 100)%N, [1])]; mk_nnode [] []; mk_nnode [] [((98, 99)%N, [3])]; mk_nnode [0] []; mk_nnode [] [((97, 98)%N, [5])]; mk_nnode [2] []], 4, 1).
Proof. reflexivity. Qed.
Example nfa_6 : to_index (HAlt [HLitU 97; HLitU 98]) = NOk
  ([mk_nnode [2; 4] []; mk_nnode [] []; mk_nnode [] [((97, 98)%N, [3])]; mk_nnode [1] []; mk_nnode [] [((98, 99)%N, [5])]; mk_nnode [1] []], 0, 1).
Proof. reflexivity. Qed.
Example nfa_7 : to_index (HAlt [HLitU 97; HLitU 98; HLitU 99]) = NOk
  ([mk_nnode [2; 4; 6] []; mk_nnode [] []; mk_nnode [] [((97, 98)%N, [3])]; mk_nnode [1] []; mk_nnode [] [((98, 99)%N, [5])]; mk_nnode [1] []; mk_nnode [] [((99, 100)%N, [7])]; mk_nnode [1] []], 0, 1).
Proof. reflexivity. Qed.
Example nfa_8 : to_index (HRep RZeroOrOne false (HLitU 97)) = NOk
  ([mk_nnode [1] [((97, 98)%N, [1])]; mk_nnode [] []], 0, 1).
Proof. reflexivity. Qed.
Example nfa_9 : to_index (HRep RZeroOrMore false (HLitU 97)) = NOk
  ([mk_nnode [] [((97, 98)%N, [1])]; mk_nnode [0] []], 0, 0).
Proof. reflexivity. Qed.
Example nfa_10 : to_index (HRep ROneOrMore false (HLitU 97)) = NOk
  ([mk_nnode [] [((97, 98)%N, [1])]; mk_nnode [0] []], 0, 1).
Proof. reflexivity. Qed.
Example nfa_11 : to_index (HRep (RExactly 0) false (HLitU 97)) = NOk
  ([mk_nnode [] []], 0, 0).
Proof. reflexivity. Qed.
Example nfa_12 : to_index (HRep (RExactly 1) false (HLitU 97)) = NOk
  ([mk_nnode [] [((97, 98)%N, [1])]; mk_nnode [] []], 0, 1).
Proof. reflexivity. Qed.
Example nfa_13 : to_index (HRep (RExactly 3) false (HLitU 97)) = NOk
  ([mk_nnode [] [((97, 98)%N, [1])]; mk_nnode [2] []; mk_nnode [] [((97, 98)%N, [3])]; mk_nnode [4] []; mk_nnode [] [((97, 98)%N, [5])]; mk_nnode [] []], 0, 5).
Proof. reflexivity. Qed.
Example nfa_14 : to_index (HRep (RAtLeast 0) false (HLitU 97)) = NOk
  ([mk_nnode [] [((97, 98)%N, [1])]; mk_nnode [0] []], 0, 0).
Proof. reflexivity. Qed.
Example nfa_15 : to_index (HRep (RAtLeast 1) false (HLitU 97)) = NOk
  ([mk_nnode [] [((97, 98)%N, [1])]; mk_nnode [2] []; mk_nnode [] [((97, 98)%N, [3])]; mk_nnode [2] []], 0, 2).
Proof. reflexivity. Qed.
Example nfa_16 : to_index (HRep (RBounded 0 0) false (HLitU 97)) = NOk
  ([mk_nnode [] []], 0, 0).
Proof. reflexivity. Qed.
Example nfa_17 : to_index (HRep (RBounded 0 1) false (HLitU 97)) = NOk
  ([mk_nnode [1] [((97, 98)%N, [1])]; mk_nnode [] []], 0, 1).
Proof. reflexivity. Qed.
Example nfa_18 : to_index (HRep (RBounded 0 2) false (HLitU 97)) = NOk
  ([mk_nnode [3] [((97, 98)%N, [1])]; mk_nnode [2; 3] []; mk_nnode [] [((97, 98)%N, [3])]; mk_nnode [] []], 0, 3).
Proof. reflexivity. Qed.
Example nfa_19 : to_index (HRep (RBounded 1 1) false (HLitU 97)) = NOk
  ([mk_nnode [] [((97, 98)%N, [1])]; mk_nnode [] []], 0, 1).
Proof. reflexivity. Qed.
Example nfa_20 : to_index (HRep (RBounded 2 2) false (HLitU 97)) = NOk
  ([mk_nnode [] [((97, 98)%N, [1])]; mk_nnode [2] []; mk_nnode [] [((97, 98)%N, [3])]; mk_nnode [] []], 0, 3).
Proof. reflexivity. Qed.
Example nfa_21 : to_index (HRep (RBounded 1 2) false (HLitU 97)) = NOk
  ([mk_nnode [] [((97, 98)%N, [1])]; mk_nnode [2; 3] []; mk_nnode [] [((97, 98)%N, [3])]; mk_nnode [] []], 0, 3).
Proof. reflexivity. Qed.

(** ** tokenizer/src/dfa.rs 301-347, [tokenizer_dfa_index_isomorphisms].  Stricter than the test, which
    compares the starts of the ranges only. *)
Fixpoint explore (a b : dfa) (fuel : nat) (todo m : list (nat * nat)) : list (nat * nat) :=
  match fuel, todo with
  | S fuel', (i, j) :: todo' =>
      match aget Nat.eqb i m with
      | Some _ => explore a b fuel' todo' m
      | None => explore a b fuel' (todo' ++ combine (map snd (nth i (d_nodes a) [])) (map snd (nth j (d_nodes b) []))) ((i, j) :: m)
      end
  | _, _ => m
  end.
Definition same_node (m : list (nat * nat)) (a b : list (crange * nat)) : bool :=
  (List.length a =? List.length b) && forallb (fun xy =>
    N.eqb (fst (fst (fst xy))) (fst (fst (snd xy))) && N.eqb (snd (fst (fst xy))) (snd (fst (snd xy))) &&
    match aget Nat.eqb (snd (fst xy)) m with Some j => j =? snd (snd xy) | None => false end) (combine a b).
Definition isomorphic (a b : dfa) : bool :=
  let m := explore a b 500 [(d_begin a, d_begin b)] [] in
  (List.length (d_nodes a) =? List.length (d_nodes b)) && (List.length m =? List.length (d_nodes a)) && (List.length (to_set (map snd m)) =? List.length m) &&
  forallb (fun ij => same_node m (nth (fst ij) (d_nodes a) []) (nth (snd ij) (d_nodes b) [])) m &&
  (List.length (d_end a) =? List.length (d_end b)) &&
  forallb (fun kv => match aget Nat.eqb (fst kv) m with
                     | Some j => match aget Nat.eqb j (d_end b) with Some v => v =? snd kv | None => false end
                     | None => false end) (d_end a).

(** ** tokenizer/src/dfa.rs 365-491, [isomorphisms]: of the function above, on the test's inputs *)
Definition ring (starts : list (nat * N)) : list (list (crange * nat)) := map (fun ts => [((snd ts, snd ts + 10)%N, fst ts)]) starts.
Example isomorphisms_1 : isomorphic
  (mk_dfa (ring [(1, 0%N); (2, 1%N); (3, 2%N); (4, 3%N); (0, 4%N)]) 0 [(2, 1); (3, 0); (4, 0)])
  (mk_dfa (ring [(1, 4%N); (2, 0%N); (3, 1%N); (4, 2%N); (0, 3%N)]) 1 [(3, 1); (4, 0); (0, 0)]) = true.
Proof. reflexivity. Qed.
Definition grid (b : N) (ts : list nat) : list (crange * nat) :=
  map (fun it => ((b + 10 * N.of_nat (fst it), b + 10 * N.of_nat (fst it) + 10)%N, snd it)) (combine (seq 0 5) ts).
Definition grid_a := map (fun b => grid b [0; 1; 2; 3; 4]) [0; 1; 2; 3; 4]%N.
Definition grid_b := map (fun b => grid b [1; 2; 3; 4; 0]) [4; 0; 1; 2; 3]%N.
Definition ends_a := [(2, 1); (3, 0); (4, 0)].
Example isomorphisms_2 : isomorphic (mk_dfa grid_a 0 ends_a) (mk_dfa grid_a 0 ends_a) = true /\
  isomorphic (mk_dfa grid_a 0 ends_a) (mk_dfa grid_b 1 [(3, 1); (4, 0); (0, 0)]) = true.
Proof. split; reflexivity. Qed.
Example isomorphisms_3 :
  isomorphic (mk_dfa (([((1, 10)%N, 0)] ++ tl (grid 0 [0; 1; 2; 3; 4])) :: tl grid_a) 0 ends_a) (mk_dfa grid_b 1 [(3, 1); (4, 0); (0, 0)]) = false /\
  isomorphic (mk_dfa grid_a 0 ends_a) (mk_dfa grid_b 1 [(3, 1); (4, 0); (1, 0)]) = false /\
  isomorphic (mk_dfa grid_a 0 ends_a) (mk_dfa grid_b 1 [(3, 1); (4, 0); (0, 1)]) = false.
Proof. repeat split; reflexivity. Qed.

(** ** tokenizer/src/dfa.rs 494-605, [construct_tokenizer_dfa] *)
Definition expect_1 : dfa := mk_dfa
    [ [((97, 98)%N, 1); ((98, 99)%N, 2); ((99, 100)%N, 3); ((100, 103)%N, 4)];
      [];
      [];
      [];
      [] ] 0 [(1, 0); (2, 1); (3, 1); (4, 2)].
Definition expect_2 : dfa := mk_dfa
    [ [((97, 98)%N, 1); ((98, 100)%N, 2); ((100, 103)%N, 3)];
      [];
      [];
      [] ] 0 [(1, 0); (2, 1); (3, 2)].
Definition expect_3 : dfa := mk_dfa
    [ [((65, 91)%N, 1); ((97, 123)%N, 1)];
      [((65, 91)%N, 0); ((97, 123)%N, 0)] ] 0 [(0, 0)].
Definition expect_4 : dfa := mk_dfa
    [ [((0, 1114112)%N, 1)];
      [((0, 1114112)%N, 2)];
      [((0, 1114112)%N, 3)];
      [((0, 1114112)%N, 4)];
      [((0, 1114112)%N, 5)];
      [] ] 0 [(2, 0); (3, 0); (4, 0); (5, 0)].
Definition expect_5 : dfa := mk_dfa
    [ [((12390, 12391)%N, 4); ((12410, 12411)%N, 6); ((12415, 12416)%N, 1)];
      [((12415, 12416)%N, 2)];
      [((12383, 12431)%N, 3)];
      [];
      [((12417, 12418)%N, 5)];
      [((12383, 12384)%N, 5)];
      [((12357, 12358)%N, 7); ((12412, 12428)%N, 6); ((12430, 12432)%N, 6)];
      [] ] 0 [(3, 0); (5, 1); (7, 2)].
Definition expect_6 : dfa := mk_dfa
    [ [((65, 91)%N, 1); ((97, 105)%N, 1); ((105, 106)%N, 2); ((106, 108)%N, 1); ((108, 109)%N, 5); ((109, 123)%N, 1)];
      [((48, 58)%N, 1); ((65, 91)%N, 1); ((97, 123)%N, 1)];
      [((48, 58)%N, 1); ((65, 91)%N, 1); ((97, 110)%N, 1); ((110, 111)%N, 3); ((111, 123)%N, 1)];
      [((48, 58)%N, 1); ((65, 91)%N, 1); ((97, 116)%N, 1); ((116, 117)%N, 4); ((117, 123)%N, 1)];
      [((48, 58)%N, 1); ((65, 91)%N, 1); ((97, 123)%N, 1)];
      [((48, 58)%N, 1); ((65, 91)%N, 1); ((97, 111)%N, 1); ((111, 112)%N, 6); ((112, 123)%N, 1)];
      [((48, 58)%N, 1); ((65, 91)%N, 1); ((97, 110)%N, 1); ((110, 111)%N, 7); ((111, 123)%N, 1)];
      [((48, 58)%N, 1); ((65, 91)%N, 1); ((97, 103)%N, 1); ((103, 104)%N, 4); ((104, 123)%N, 1)] ] 0 [(1, 1); (2, 1); (3, 1); (4, 0); (5, 1); (6, 1); (7, 1)].
Definition dfa_from (hs : list hir) : res (dfa * list end_conflict) :=
  match tnfa_of hs with NOk t => dfa_of (fun l => l) 200 t | _ => Panic end.
Definition dfa_test (hs : list hir) (expect : dfa) : Prop :=
  match dfa_from hs with
  | Ok (d, _) =>
      match minify plain_min d, minify rev_min d with Ok d1, Ok d2 => isomorphic d1 expect = true /\ isomorphic d2 expect = true | _, _ => False end
  | _ => False
  end.
Definition abc_f : list hir := [cls 97 97; cls 97 99; cls 99 102].
Example construct_dfa_1 : match dfa_from abc_f with
  | Ok (d, ws) => isomorphic d expect_1 = true /\ forall w, In w ws <-> In w [(1, 0); (2, 1)]
  | _ => False end.
Proof. vm_compute. split; [reflexivity|]. intros w. tauto. Qed.
Example construct_dfa_2 : dfa_test abc_f expect_2.
Proof. vm_compute. split; reflexivity. Qed.
Definition letters : hir := HClassU [(65, 90); (97, 122)]%N.
(** "([a-zA-Z]{2})*" *)
Example construct_dfa_3 : dfa_test [HRep RZeroOrMore true (HGroup (HRep (RExactly 2) true letters))] expect_3.
Proof. vm_compute. split; reflexivity. Qed.
Definition any_or_nl : hir := HAlt [HClassU [(0, 9); (11, 0x10FFFF)]%N; HLitU 10].
(** "(.|\n){2,5}" *)
Example construct_dfa_4 : dfa_test [HRep (RBounded 2 5) true (HGroup any_or_nl)] expect_4.
Proof. vm_compute. split; reflexivity. Qed.
(** three patterns with Japanese letters *)
Example construct_dfa_5 : dfa_test
  [ HConcat [HLitU 12415; HLitU 12415; cls 12383 12430];
    HConcat [HLitU 12390; HLitU 12417; HRep RZeroOrMore true (HLitU 12383)];
    HConcat [HLitU 12410; HRep RZeroOrMore true (HClassU [(12412, 12427); (12430, 12431)]%N); HLitU 12357] ] expect_5.
Proof. vm_compute. split; reflexivity. Qed.
(** "int|long" and "[a-zA-Z][a-zA-Z0-9]*" *)
Definition chars (s : string) : list N := map N_of_ascii (list_ascii_of_string s).
Definition word (s : string) : hir := HConcat (map HLitU (chars s)).
Definition alnum : hir := HClassU [(48, 57); (65, 90); (97, 122)]%N.
Example construct_dfa_6 : dfa_test [HAlt [word "int"; word "long"]; HConcat [letters; HRep RZeroOrMore true alnum]] expect_6.
Proof. vm_compute. split; reflexivity. Qed.

(** ** tokenizer/src/lib.rs 63-76, [char_range] *)
Definition cr (a b : N) : crange := (a, b).
Example char_range :
  range_eq (cr 0 2) (cr 0 2) = true /\ range_eq (cr 0 2) (cr 0 3) = true /\ range_eq (cr 0 3) (cr 0 2) = true /\
  range_eq (cr 0 2) (cr 1 2) = false /\ range_eq (cr 1 2) (cr 0 2) = false /\
  range_cmp (cr 0 2) (cr 1 2) = Lt /\ range_cmp (cr 1 2) (cr 0 2) = Gt /\ range_cmp (cr 0 1) (cr 1 2) = Lt /\ range_cmp (cr 1 2) (cr 0 1) = Gt.
Proof. repeat split; reflexivity. Qed.

(** ** tokenizer/src/tokenizer/iter.rs 88-130 and tokenizer_generator/tests/normal.rs *)
Inductive token := A (s : list N) | B (s : list N) | C (s : list N).
Definition tkA s := A (chars s). Definition tkB s := B (chars s). Definition tkC s := C (chars s).
(** "[a-zA-Z_][a-zA-Z0-9_]*" *)
Definition h_ident : hir := HConcat [HClassU [(65, 90); (95, 95); (97, 122)]%N; HRep RZeroOrMore true (HClassU [(48, 57); (65, 90); (95, 95); (97, 122)]%N)].
(** "0([xX][0-9a-fA-F]+|[dD][0-9]+|[oO][0-7]+|[bB][01]+)|[1-9][0-9]*|0" *)
Definition two (a b : N) : hir := HClassU [(a, a); (b, b)]%N.
Definition some_of (rs : list (N * N)) : hir := HRep ROneOrMore true (HClassU rs).
Definition h_numb : hir := HAlt
  [ HConcat [HLitU 48; HGroup (HAlt
      [ HConcat [two 88 120; some_of [(48, 57); (65, 70); (97, 102)]%N]; HConcat [two 68 100; some_of [(48, 57)]%N];
        HConcat [two 79 111; some_of [(48, 55)]%N]; HConcat [two 66 98; some_of [(48, 49)]%N] ])];
    HConcat [cls 49 57; HRep RZeroOrMore true (cls 48 57)]; HLitU 48 ].
Definition test_hirs : list hir := [h_ident; h_numb; any_or_nl].
Definition test_parse : nat -> hir + unit := parse_in test_hirs.
Definition makers : list (nat * (list N -> list N -> token)) := [(0, fun s _ => A s); (1, fun s _ => B s); (2, fun s _ => C s)].
Definition tokens_of {T E} (t : bres unit (tokenizer E T)) (f : T -> N) (input : list T) : res (list E) :=
  match t with BOk t => tok_collect 100 t f (tokenize_with input) | _ => Panic end.
Definition built {T E} (ps : list (nat * (list N -> list T -> E))) : bres unit (tokenizer E T) :=
  match build nat unit test_parse rev_env 200 ps with BOk (t, _) => BOk t | BErr e => BErr e | BPanic => BPanic | BFuel => BFuel end.
Definition by_macro {T E} (ps : list (nat * (list N -> list T -> E))) : bres unit (tokenizer E T) :=
  tokenizer_macro nat unit test_parse plain_env (@rev _) 200 ps.
Definition text_1 := "let mut test = 0xFF;"%string.
Definition text_2 := "1+0b10+0o7+0d9+0xf"%string.
Definition text_3 := "01+0b2+0o8+0da+0xg"%string.
Local Open Scope string_scope.
Definition tokens_1 := [tkA "let"; tkC " "; tkA "mut"; tkC " "; tkA "test"; tkC " "; tkC "="; tkC " "; tkB "0xFF"; tkC ";"].
Definition tokens_2 := [tkB "1"; tkC "+"; tkB "0b10"; tkC "+"; tkB "0o7"; tkC "+"; tkB "0d9"; tkC "+"; tkB "0xf"].
Definition tokens_3 := [tkB "0"; tkB "1"; tkC "+"; tkB "0"; tkA "b2"; tkC "+"; tkB "0"; tkA "o8"; tkC "+"; tkB "0"; tkA "da"; tkC "+"; tkB "0"; tkA "xg"].
Local Close Scope string_scope.
Example tokenize_iterator_1 : tokens_of (built makers) (fun c => c) (chars text_1) = Ok tokens_1 /\ tokens_of (by_macro makers) (fun c => c) (chars text_1) = Ok tokens_1.
Proof. split; vm_compute; reflexivity. Qed.
Example tokenize_iterator_2 : tokens_of (built makers) (fun c => c) (chars text_2) = Ok tokens_2 /\ tokens_of (by_macro makers) (fun c => c) (chars text_2) = Ok tokens_2.
Proof. split; vm_compute; reflexivity. Qed.
Example tokenize_iterator_3 : tokens_of (built makers) (fun c => c) (chars text_3) = Ok tokens_3 /\ tokens_of (by_macro makers) (fun c => c) (chars text_3) = Ok tokens_3.
Proof. split; vm_compute; reflexivity. Qed.

(** ** tokenizer/src/tokenizer/iter.rs 134-230 and tokenizer_generator/tests/with.rs: items are characters with
    their position; the closures use the position of the first item and the number of items *)
Inductive token_at := At (k : nat) (s : list N) (pos len : nat).
Definition tpA s p n := At 0 (chars s) p n. Definition tpB s p n := At 1 (chars s) p n. Definition tpC s p n := At 2 (chars s) p n.
Definition first_at (a : list (N * nat)) : nat := match a with (_, p) :: _ => p | [] => 999 end.
Definition makers_at : list (nat * (list N -> list (N * nat) -> token_at)) :=
  map (fun k => (k, fun s a => At k s (first_at a) (List.length a))) [0; 1; 2].
Definition with_pos (s : string) : list (N * nat) := combine (chars s) (seq 0 (String.length s)).
Local Open Scope string_scope.
Definition tokens_at_1 := [tpA "let" 0 3; tpC " " 3 1; tpA "mut" 4 3; tpC " " 7 1; tpA "test" 8 4; tpC " " 12 1; tpC "=" 13 1; tpC " " 14 1; tpB "0xFF" 15 4; tpC ";" 19 1].
Definition tokens_at_2 := [tpB "1" 0 1; tpC "+" 1 1; tpB "0b10" 2 4; tpC "+" 6 1; tpB "0o7" 7 3; tpC "+" 10 1; tpB "0d9" 11 3; tpC "+" 14 1; tpB "0xf" 15 3].
Definition tokens_at_3 := [tpB "0" 0 1; tpB "1" 1 1; tpC "+" 2 1; tpB "0" 3 1; tpA "b2" 4 2; tpC "+" 6 1; tpB "0" 7 1; tpA "o8" 8 2; tpC "+" 10 1; tpB "0" 11 1; tpA "da" 12 2; tpC "+" 14 1; tpB "0" 15 1; tpA "xg" 16 2].
Local Close Scope string_scope.
Example tokenize_with_1 : tokens_of (built makers_at) fst (with_pos text_1) = Ok tokens_at_1 /\ tokens_of (by_macro makers_at) fst (with_pos text_1) = Ok tokens_at_1.
Proof. split; vm_compute; reflexivity. Qed.
Example tokenize_with_2 : tokens_of (built makers_at) fst (with_pos text_2) = Ok tokens_at_2 /\ tokens_of (by_macro makers_at) fst (with_pos text_2) = Ok tokens_at_2.
Proof. split; vm_compute; reflexivity. Qed.
Example tokenize_with_3 : tokens_of (built makers_at) fst (with_pos text_3) = Ok tokens_at_3 /\ tokens_of (by_macro makers_at) fst (with_pos text_3) = Ok tokens_at_3.
Proof. split; vm_compute; reflexivity. Qed.
