# Formal model of Yet-Another-Rust-Parser

Where things are:

| | |
|---|---|
| `properties.jsonl` | the properties, in English, in terms of the API |
| `MANIFEST.json` | property -> status and theorem names |
| `rocq/theories/*Model.v`, `Grammar.v`, `Hir.v` | the model: executable Gallina, no proofs |
| `rocq/theories/*Spec.v`, `TokSpec.v`, `Trees.v`, `MachSpec.v` | small specifications used in the statements |
| `rocq/theories/Prop*.v` | the property theorems, each with `Print Assumptions` and an `Example` |
| `rocq/theories/Tests*.v` | the test suites of the repository, run on the model |
| everything else in `rocq/theories` | proofs |
| `seeded/LOG.jsonl` | wrong programs the theorems were tested against |

## 1. What is modelled

The code has two halves and so has the model; the macros and the example program
connect them.

| code | model | remarks |
|---|---|---|
| `tokenizer/src/nfa.rs` 1-444 (regex HIR to NFA, cloning, all patterns in one graph, epsilon closure) | `Hir.v`, `NfaModel.v` | pointers are indices into a heap; `clone` and the pointer maps are modelled, so that a failing map lookup is a panic; with addresses, counts and locks: `MemModel.v` |
| `tokenizer/src/dfa.rs` 1-270 (subset construction, range splitting, accepting states, warnings, `minify`) | `DfaModel.v`, `MinModel.v` | hash iteration orders and hash lookups of unequal-but-`Eq` keys are oracles; from the patterns to the table with boxes at addresses: `BoxModel.v` |
| `tokenizer/src/lib.rs` (`CharRange` with its `Ord`, `Eq`, `Hash`) | `NfaModel.v`, `MinModel.v`, `TraitModel.v` | |
| `tokenizer/src/tokenizer.rs`, `tokenizer/src/tokenizer/iter.rs` (tables, builder, iterator) | `TokModel.v` | the iterator state is queue + rest of the input; on arbitrary iterators and closures with state: `PullModel.v`; with any implementation of the trait `Tokenizer`: `AnyTokModel.v` |
| `tokenizer_generator/src/lib.rs` 75-142 (`tokenizer!`) | `TokModel.v` | from the list of rules on |
| `tokenizer_generator/src/lib.rs` 9-73, `parser_generator/src/lib.rs` 14-299 (input syntax of both macros) | `SynModel.v` | over token trees; the `syn` parsers for visibility, path, type, pattern and expression are parameters |
| `parser/src/syntax.rs` (`Rule`, `RuleBuilder`, `Syntax`, `SyntaxBuilder`, traits) | `Grammar.v`, `ParseModel.v`, `TraitModel.v` | |
| `parser/src/parser.rs` 1-397 (NULL, FIRST, closure, goto, tables, warnings, error rules, `LR1Parser::new`) | `LrModel.v` | the iteration orders of the hash maps are oracles (`lr_env`) |
| `parser/src/iter.rs` 1-172 (`parse` with error recovery) | `ParseModel.v` | reducers are arbitrary functions that may fail or panic; on arbitrary iterators: `PullModel.v`; reducers with effects: `EffModel.v`; iterator and reducers sharing a state: `MixModel.v` |
| `parser_generator/src/lib.rs` 301-492 (`parser!`) | `GenModel.v` | both the work of the macro and the function it generates |
| `example/src/main.rs` | `ExModel.v` | `f64` is an arbitrary type with arbitrary operations; the lazy composition of the iterators is in `PullModel.v` |

Not modelled:

* `regex_syntax` 0.6 (string to HIR).  `build` takes the regex parser as a parameter;
  theorems hold for every such function whose results are well-formed (`parses_wf`:
  class ranges non-empty, sorted, disjoint, within Unicode; concatenations not empty;
  `n <= m` in `{n,m}`).  For the example program C47/C48 additionally assume that the nine
  patterns are parsed to `calc_hirs` (`ExSpec.v`).
* `syn`/`quote`/rustc: lexing, hygiene, compilation of the generated code.  The primitives of
  `syn` that the macros call (identifiers, punctuation, groups, `parse_terminated`) are written
  from its documentation, since its source is not here; its parsers for Rust syntax are
  parameters of C54/C55 with the assumption `reads` (`SynSpec.v`): they return pieces of the kind
  asked for, and read every such piece completely when the required token follows it.
* Debug/Display output (except the arithmetic of `Debug for CharRange`, C87, and `Display for ParseError`, C96), `eprintln!`, timing, `shrink_to_fit`, `tokenizer_nfa_to_index` and
  `print_tokenizer_dfa_index` (debugging and tests only).
* Overflow of `usize`, memory exhaustion: these numbers are lengths of things in memory and positions in
  them.  The `u32` arithmetic of the tokenizer build is modelled in `IntModel.v` (C87).
* Memory: in most files pointers are positions in a vector and a dangling one would be a panic
  (shown not to happen, C14).  The safe pointers of `nfa.rs` (`Arc`, `Weak`, `RwLock`) are modelled
  with addresses, counts and locks in `MemModel.v` (C83), the boxes and raw pointers with addresses
  and explicit freeing in `BoxModel.v` (C85).  Not modelled: that a `Weak` keeps the block of its node from
  being handed out again, poisoning, the aliasing rules for references (`&mut` to a box whose address is
  also held as a raw pointer), and unwinding.
* Side effects of user closures: token makers have effects and may panic in C67 and are pure functions elsewhere.  Reducers have effects on a state of any
  type in C60-C62 (in C62 shared with the iterator) and are pure functions (that may panic or fail) elsewhere; the closure of
  `tokenize_with` has a state in C58 and is pure elsewhere.  A reducer gets `&mut` values but the parser drops them
  after the call, so mutation is not observable.
* Unicode text: a `&str` is the list of its code points.

## 2. How it is modelled

* **Panic and divergence are data.**  Fallible functions return `Ok | Panic | OutOfFuel`
  (`Lib.v`); `unwrap`, indexing and `unreachable!` become `Panic`.  Loops without a
  structural measure run on fuel.  Results do not change with more fuel (`loop_mono`), so
  "returns r" means: for some fuel the model gives `Ok r`; "diverges" means: for every fuel it
  gives `OutOfFuel`; "terminates" means: some fuel suffices.
* **Sets and maps.**  `BTreeSet`/`BTreeMap` are strictly sorted lists.  `HashMap`/`HashSet`
  are association lists; wherever the iteration order may matter it is an oracle over which
  the theorems quantify (`build_env`, `lr_env`, `gen_env`).
* **Hash lookups of equal keys with different hashes.**  `CharRange` compares by start only
  but hashes the whole range.  In `minify` a lookup may or may not find an `Eq`-equal key
  with a different hash, depending on the seed and the layout of the table.  An oracle decides.
  `env_honest` says that the oracle never confuses different keys.
* **Statements.**  The regular language of an expression is `matches` (`Hir.v`), tokenization
  is `munch` (`TokSpec.v`), derivations are trees (`Trees.v`, `ParseSpec.v`), LR(1) items and
  their validity are `LrSpec.v`, the table-free parser is `MachSpec.v`, the arithmetic of the
  example is `ExSpec.v`.  None of these mentions the tables or the fuel of the model.

## 3. Findings about the code

Each is proved (theorems `…_refuted`, `…_diverges` or lemmas beside the property):

1. A tokenizer that accepts the empty string never ends (C05).
2. The NFA construction shares begin/end nodes, so e.g. `(ab*)?` accepts `b` (C06); the empty
   expression accepts everything.  It never misses a match (C07).
3. `minify` may merge different states for unlucky hash seeds because `CharRange` compares
   only starts (C11, C18).  A decidable test on the patterns (`seed_safe`) excludes this; the
   example's patterns pass it.
4. `S ::= S | a` gives no warning although it is ambiguous: acceptance silently overrides
   a reduction at the end of input (C24).
5. Warning-free grammars with unproductive symbols can hang the parser, even without error
   rules (C23, C29); so can `L ::= error L | x` and reduce/reduce cycles (C29).
6. `S ::= error` panics on the empty input (C28).
7. An error at the end of input passes a wrong slice to the error rule (C34).
8. A nonterminal reduced from nothing is recorded as starting behind the lookahead; recovery
   then loses tokens (C35).
9. At the end of the input recovery looks only at the current state (C36).
10. `parser!` with two names for one enum variant differs from the builder (`alias_differs`, C38).
11. `LR1Parser::new` panics on a nonterminal without rules only if it is reached by a closure
    with a non-empty lookahead set (C27).
12. The example program loops forever at the end of its input, printing an error (C48).
13. The token iterator calls its closure again on items it pushed back, and asks its iterator again
    after the end (C58, C59); `parse` never does (C57).

## 4. Properties

Status "partial": the English claim is false of the code; the theorem `…_partial` proves it under
the named condition and `…_refuted` shows that the condition is needed.

| id | modelled | how it is proved |
|----|----------|-----|
| C01 C03 C04 C19 | iterator state, one `next` | spec of the scanning loop (`TokProofs.v`), any state, any number of calls |
| C05 (partial) | `collect` | each token is non-empty unless the start state accepts; divergence shown otherwise |
| C02 C09 C13 | subset construction | work-list invariant: the run of the DFA is the set of NFA states (`DfaProofs.v`, `DfaEdges.v`) |
| C06 (partial) C07 C42 | NFA construction on a heap | four languages per expression, from {begin,end} to {begin,end} (`NfaSem.v`), exact on the heap (`NfaProofs.v`, `NfaCorrect.v`); compared with `matches` (`NfaExact.v`, `NfaTop.v`) |
| C08 C14 | errors, fuel | structural induction; measures |
| C10 | range splitting, lookup | sortedness and membership lemmas |
| C11 (partial) C12 C18 (partial) | `minify` with hash oracles | partition refinement invariant (`MinProofs.v`); safe tables: the oracle is never asked about different keys with equal starts (`MinSafe.v`) |
| C15 C17 | whole pipeline | composition of the above |
| C16 | table emission | inserting the entries again gives the same map |
| C20 | `calc_null`, `calc_first` | fixpoint invariants against derivations (`LrSets.v`) |
| C21 C26 C37 C41 C45 | parse loop | stack invariant: a path of the item automaton with trees (`ParseInv.v`, `ParseOrigin.v`) |
| C22 C23 (partial) C25 C33 C40 | parse loop on conflict-free tables | simulation of a derivation tree (`ParseComplete.v`, `ParseTop.v`, `ParseMore.v`) |
| C24 (partial) | tables | the simulation determines the tree (`ParseAmb.v`) |
| C27 | `LR1Parser::new` | fuel bounds for all loops, lookups succeed (`LrNew.v`, `LrTop.v`) |
| C28 (partial) C29 (partial) | panic and fuel outcomes | invariants; termination measure on stacks, with recovery (`ParseTerm.v`, `ParseRecTerm.v`) |
| C30 C31 C32 | tables | valid items characterise states; refinement to the item automaton (`LrStates.v`, `LrTable.v`, `ParseHash.v`); the warnings are the first components of a duplicate-free list of (warning, look-ahead) |
| C34 (partial) C35 (partial) C36 | recovery | invariants on positions (`ParseCover.v`, `ParseFloat.v`), witnesses |
| C38 C39 | macro translation | renaming of symbols is a simulation (`GramRename.v`, `GenProofs.v`, `GenTop.v`) |
| C43 C44 | `parse` as a whole | step-by-step simulation with a table-free machine (`MachSpec.v`, `MachProofs.v`) |
| C46 | the example's parser | C23/C25 applied to its grammar; expressions and derivation trees correspond |
| C47 | the example's tokenizer | C15 applied to its patterns, `seed_safe` by computation; the number expression equals `number_text` |
| C48 | the example's loop, eager and lazy | composition, induction over lines |
| C49 | all patterns together against each alone | the language of a state of the joint automaton is exact (`DfaTop.v`), twice (`PropComp.v`) |
| C50 | turns of the parse loop | reductions above an unchanged stack prefix are bounded per state (well-foundedness, finitely many states), hence a potential on the stack height (`ParseLin.v`) |
| C51 | derivation trees | C24; conversely a cycle is inserted into a tree (`PropAmb.v`) |
| C52 C53 (partial) | the trait implementations, hashing as the list of values written (`TraitModel.v`) | key functions into ordered types; witnesses |
| C57 C58 C59 | `parse` and `next` over an arbitrary `pull` function (`PullModel.v`) | simulation with the list model on the tokens pulled so far (`PullProofs.v`); composition with C15, C23, C56 |
| C60 C61 | `parse` with reducers that read and write a state (`EffModel.v`) | two runs with the same tables are related turn by turn (`ParseRel.v`); the run with reducers that do nothing gives the trees, their evaluation with effects (`EffSpec.v`) is the invariant (`EffProofs.v`) |
| C62 | `parse` with a state shared by iterator and reducers (`MixModel.v`) | the same with evaluation one token ahead (`MixSpec.v`) as the invariant; the tokens are those the run has taken, C50 bounds the run (`MixProofs.v`) |
| C63 | turns of the parse loop of a table with conflicts | a series of reductions without a shift is a chain of rewritings at the right end of the stack; without cycles and hidden left recursion (`LoopSpec.v`) it is well-founded (`ParseLoop.v`), which is all that the proofs of C29, C50, C60 and C62 use; a certificate for the two conditions (`LoopCheck.v`) |
| C64 | the constructors of rules and syntaxes | induction over the chain of calls (`PropRule.v`) |
| C65 | the valid items and the reference parser of two grammars with the same reachable rules | items correspond by induction (`RuleMap.v`), hence the decisions; the runs of the reference parsers of MachSpec.v simulate each other, C43 carries this to `parse` (`PropOrder.v`) |
| C19 (look-ahead) | the automaton of every pattern, node by node | every node of an expression without empty classes and alternations leads to its end node, by induction over the construction (`NfaLive.v`, `PropLook.v`) |
| C66 | two builds from permuted pattern lists | what the automaton can read is a union over the patterns (`tg_live`, `build_live`); without warnings the pattern languages are disjoint; `next` depends on acceptance up to renumbering (`TokLive.v`, `PropPatOrder.v`) |
| C67 | `next` with an arbitrary implementation of the trait and a world shared by iterator, closure and makers (`AnyTokModel.v`) | invariant of the scanning loop over the language of the implementation (`walk`, `im_accepts`); refinement for `DFATokenizer` |
| C68 | the closure as a counter in `PullModel.v` | per call: items looked at are pending items (C58); sum over the calls; the lower bound by induction on the length of the text |
| C69 | as C28 | the invariant of runs with the decision of each turn (`reduces_spec`); on the empty input the stack holds error symbols and nonterminals that derive nothing |
| C70 | the moves that build a tree and their order (`ChoiceSpec.v`) | a run and the moves of any other tree go through the same configurations up to the first difference; there every move of the other tree is allowed, so that the decision of the table is preferred; exchange of subtrees for the corollaries |
| C71 | runs with recovery and the list of detected errors | between two errors the run is bounded as in C60 (`burst` of `ParseLin.v`), an error adds at most the length of the input; the lower bound by induction on the nesting of the input, with the runs of `RecFamily.v` |
| C72 | the turns after a recovery, the unread input (`SkipSpec.v`) | with a token behind every error symbol no rule ends there and no error symbol is wanted there, so that every unexpected token pops the error symbol and pushes it again; induction on the dropped tokens (`ParseSkip.v`) |
| C73 | runs with recovery (`SteadySpec.v`) | a potential of the stack: the tokens already read above the topmost place where recovery is possible; with steadiness the place of the last recovery never gets lost, so that two errors in a row move it forward (`ParseSteady.v`); a certificate for steadiness computed from the tables for the example |
| C74 | rightmost derivations (`Lr1Spec.v`) | every step of a rightmost derivation gives a complete valid item, and with productive symbols every valid item comes from a rightmost derivation (`Lr1Proofs.v`); the start rule by counting steps of derivations |
| C75 | the same rules under two numberings (`NumSpec.v`) | an injective renaming of the numbers that occur carries one augmented grammar to the other, hence states, decisions and conflicts; two runs side by side with stacks related by the strings read and tokens outside the grammar treated separately (`ParseNum.v`) |
| C76 | a statement list R ::= X ; R \| error ; R \| ε over any ε-free statement grammar, what each piece contributes (`StmtSpec.v`) | induction on the rest of the input: in a state at the boundary of statements, the run on a right piece is that of its tree, on a wrong piece it stops at the first token that cannot go on, falls back to the boundary and skips to the end token (`ParseStmt.v`) |
| C77 | operator tables as grammars, groupings and their values (`OpSpec.v`) | no two items of a valid set ask for different actions, from a description of what can stand at the beginning and the end of each level (`OpProofs.v`); values of expressions against values of trees (`ValueProofs.v`, `OpTop.v`); uniqueness by a parser whose reducers build the expression; existence of a grouping by pushing operators into grouped expressions (`OpGroup.v`) |
| C78 | two grammars, one of them in the place of a token of the other (`NestSpec.v`) | a valid item of the combined grammar is a valid item of the outer one with X for x, or a valid item of the inner one behind a prefix of the outer one; the two kinds do not meet because nothing is shared, two items never meet, and an item is neither empty nor rewritten to itself (`NestProofs.v`); the language by induction on derivations |
| C79 | separated lists over any item grammar (`ListSpec.v`) | C78 with L ::= x \| L sep x, whose warning-freeness for arbitrary numbers comes from one computation and C75 (`OuterGrams.v`); the values by C25 for the list and for the items (`PropNest.v`). In the same way the statement list of C76 is shown to be built without warnings |
| C80 | tokens written out (`ReadSpec.v`) | readable sequences are those that maximal munch (C56) gives for their own text, by induction; its uniqueness (C15) (`PropRead.v`) |
| C81 | writing out a nonterminal (`InlineSpec.v`) | values along derivations (C25) are the same before and after, by induction over them with the parts of each value found again; rejection by C23 (`PropInline.v`) |
| C82 | words of a text (`LayoutSpec.v`: `in_words`, `somes`) | induction over both texts: a longest match does not cross a border between a word and a separator, so both munches find the same tokens in a word; the calculator through C47 and C48 (`PropLayout.v`) |
| C83 | `MemModel.v`: the code of `nfa.rs` on a memory with an arbitrary allocator, strong counts, locks, freeing, and the drops the compiler inserts | simulation (`MemProofs.v`: `sim`) of the growing heap of `NfaModel.v`: injective addresses for the owned cells, count = number of owners, nothing else is live; structural induction over patterns (`MemRep.v`, `MemNfa.v`, `MemTok.v`, `PropMem.v`) |
| C84 | `PlaceSpec.v`: the relation `placed` between an automaton and the same automaton at other addresses | renaming lemmas for every step of the subset construction: sorted sets of pointers are mapped and sorted again, the range tables are insensitive to the order in which edges are added (`PlaceProofs.v`), then a simulation of the work list (`PlaceTop.v`, `PropPlace.v`) |
| C85 | `BoxModel.v`: the build from the patterns to the table again, with boxes at addresses, allocation, dropping, and a dangling access as a separate outcome; `BoxSpec.v`: allocators and iteration orders | the memory is related to the automata of positions: translation (`BoxNfa.v`), subset construction (`BoxDfa.v`, with C84), minimisation (`BoxMin.v`), table (`BoxTop.v`); `PropBox.v` |
| C86 | `MakeSpec.v`: what a list of expressions with makers makes of one text | from what each text is accepted for (C56) to the result of a call and back (`PropMakes.v`); the rewritings are facts about the specification alone |
| C87 | `IntModel.v`: the build with `u32` additions and subtractions that panic or wrap | every sum and difference is in range: repetition bounds by the arm they are in, range bounds by an invariant of the edges of the NFA and of the maps of the subset construction (`IntProofs.v`); a character past Unicode shows that the two profiles would differ (`C87_needed`) |
| C88 | `ValueSpec.v`: the outer grammar over tokens and item values, the nested grammar with the same reducers; `spelled` | induction on the value of a derivation in both directions, C25_value for the three parsers and C78 for the conditions (`PropValue.v`) |
| C89 | `TokModel.v`: the iterator with its queue of pushed back items | two scans over texts with a common part in lock step, as long as the second part is untouched; the rest by C03's state and the same tokens from the same pending items; words by maximality of the match (`PropEdit.v`) |
| C90 | `TokModel.v`, `PullModel.v`: the lazy pipeline from text to value | from C56 and C59: what maximal munch leaves over starts with a character that no pattern matches; the tokens of the part that was read are the same when it stands alone (`PropWhole.v`); witness of an accepted text with garbage at its end |
| C91 | `LrModel.v`, `ParseModel.v`; `GrowSpec.v`: the new rule and when it is delimited | a conflict of two items in the grown grammar, seen on a derivation, is moved into the old grammar by replacing each use of the new rule by a string of the old one (counting reductions so that the replacement ends, `GrowProofs.v`); both parsers follow the same reference machine on words without the keyword (`GrowSim.v`, `PropGrow.v`); a witness for each condition |
| C92 | `LrModel.v`, `ParseModel.v` | every conflict below a reachable nonterminal is one of the whole grammar (`part_free` in `GrowProofs.v`, `PropGrow.v`); witness that reachable is needed |
| C93 | `LrModel.v`, `ParseModel.v`; `AmbigSpec.v`: the conditions on the grammar | the rest of the input is accepted from a stack of unfinished constructs; each token fits in one place, and shifting instead of reducing keeps acceptance because the frames skipped can be closed later (`AmbigProofs.v`); loop freedom by C63, the tree by C70; a sound checker for the conditions and, for each condition, a grammar that loses a text without it (`PropAmbig.v`) |
| C94 | `TextModel.v`: the macros from the token trees to the generated parser or tokenizer, composed of `SynModel.v`, `GenModel.v`, `TokModel.v`; `TextSpec.v`: what a text stands for | by C54, C55 (reading), C38, C39 (code), C16, after showing that what the text stands for is what was handed on (`stands_written` in `PropText.v`) |
| C95 | the stack in the states of `ParseModel.v`; `DepthSpec.v`: nonterminals inside nonterminals behind something | the symbols on the stack are a viable prefix (C20); a viable prefix is a chain of started rules, no nonterminal with something in front twice; growth: a sentence with the nonterminal nested n times, followed through the run (`DepthProofs.v`). The vector of all tokens taken, which `parse` also keeps, is not counted |
| C96 | `ErrModel.v`: `ParseError`, its `Display` and `Error`; a formatter is options and a sink; `ErrSpec.v`: reports, nesting | by C25 (which error) and by induction on the depth (`PropErr.v`). What std does for `write!` with a literal and for `to_string` is assumed as described there; the derived `Debug` is not modelled |
| C97 | `FlatSpec.v`: constructs, the reading `whole`/`operand` | such grammars meet the conditions of C93, so nothing is lost; by C70 no construct that ends with an operand is a left operand in the tree; such a tree is the reading; a text has one reading, by induction on its length (`FlatProofs.v`) |
| C98 | `LoopListSpec.v`: `part` (value of a piece, error slices take no tokens), `repeated`, `from_left`, `from_right` | the trees of the stack invariant give the pieces of each call (`C98_arguments`); the lists by induction on the derivation (`PropLists.v`) |
| C99 | `BlockSpec.v`: `block_list` (grammar), `nested` (inputs), `blocks` (the value, statement by statement and block by block) | the valid items after complete statements and open blocks (`items`, `bd_valid`), the turns up to and after an error, then induction on the nesting (`ParseBlock.v`, `main`); one value per input by `nested_cut` and the uniqueness of trees |
| C100 | `BrackSpec.v`: `bracket_syntax` (grammar), `bracket_rules`, `reads` (inputs right but for innermost groups, with their value) | the valid items after an opening bracket and nothing wider (`open_items`, `wants_close`, `complete_cases`): the phases of C76/C99 for the wrong content, and an induction on the reading in the style of `machine_complete` for the rest (`read_run` in `ParseBrack.v`); `flat` is needed (`C100_flat_needed`) |
| C101 | `SepRecSpec.v`: `rec_list` (grammar), `read_list` (pieces with their values), `last_right` | the phases of C76 with the end of input as a second way to end an item (`D_phase`, `stuck_last`, `last_turn` in `ParseSepRec.v`); the construction by nesting (C78); the boundaries are `C101_last_item_refuted` and `C101_empty_rules_refuted` |
| C102 | `LeftRecSpec.v`: `left_rec` (grammar), `piece` and `left_value` (pieces with their values), `unfinished` | an invariant of the list read so far (`pre`), the phases of C76 for one piece, and the abstract machine run on a piece with any continuation (`stuck_begins`, `read_begins` in `ParseLeftRec.v`); the construction by nesting (C78); the boundaries are `C102_empty` and `C102_empty_rules_refuted` |
| C103 | `WaysSpec.v`: `entries` (what the pieces of an input contribute), reducers that collect (`inserts`, `pushes`, ...) | each of the values of C76, C101 and C102 stands for `entries`, by induction on it; `entries` is unique by the uniqueness of item values (`PropWays.v`); the boundary is `C103_end_refuted` |
| C104 | `ListEditSpec.v`: `entry`, `row` (what pieces with their separators contribute) | the values of C76, C101 and C102 stand for a `row` and a rest (`shape` in `PropListEdit.v`); a `row` splits at separators and is unique; the boundary is `C104_trailing_refuted` |
| C105 | `TextRecSpec.v`: `answers` (an outcome of the two lazy stages), `made_tokens` | the pipeline of C59 for every outcome, and the exact theorems of C76, C101 and C102 (`PropTextRec.v`) |
| C106 | `ListTimeSpec.v`: `recovers_in_list` (where error symbol, list and separator may stand in the rules) | such grammars are `steady`, then C73 bounds the errors; the turns are bounded with a measure of at most 3n+2 that every shift and every detected error lowers (`cls` in `ParseStmt.v`, `ParseSepRec.v`, `ParseLeftRec.v`), the reductions in between being paid for by the symbols they take off the stack (`ParseAmort.v`, `PropListTime.v`) |
| C107 | `TextTimeSpec.v`: `recovering_list` (the three lists of C106) | C59 turns the pipeline into `parse` on the tokens, maximal munch without empty tokens bounds their number, C106 bounds the turns (`PropTextTime.v`) |
| C56 | accepted language of every pattern | the NFA as four languages (`NfaSem.v`), each given by an expression (`ActualSpec.v`) |
| C54 C55 | the readers of the macro inputs over token trees (`SynModel.v`) | agreement with an inductive notation (`SynSpec.v`), in both directions; shape induction (`SynProofs.v`) |

## 5. Trusted base

* The kernel of Coq 8.16.1, including `vm_compute` (used for examples, witnesses and the
  decision of boolean side conditions).  No `native_compute`.
* No axioms: `Print Assumptions` answers "Closed under the global context" for every theorem in
  the `Prop*.v` files; the build prints this.  `vcheck`/`coqchk` list seven constants of
  `Coq.ssr.ssrunder.Under_rel` (`Under_rel`, `Under_rel_from_rel`, `Under_relE`, `Over_rel`, `over_rel`,
  `over_rel_done`, `under_rel_done`); these belong to a module type of the standard library that
  is loaded with it and no theorem here uses them.
* The reading of the Rust sources into the model: every definition cites the lines it models.
* The specifications named in section 2.

## 6. Tests against wrong programs

`seeded/LOG.jsonl` has one line per edit of the model: the definition, the edit, the claim it
breaks, the theorems whose proofs then fail, and the theorems tightened in consequence.  The
edits were made in a copy outside this directory.  To find all theorems affected by an edit (and not
just the first broken lemma), the broken lemmas were admitted in the copy one after the other and the
property theorems that then depend on an admitted lemma counted as failed.

What the log does not show:

* 533 of the 947 rows (ids `A1` to `A533`) were made by a script that stops at the first proof that fails.
  In 468 of them that proof is a lemma and no property theorem is named: the edit is noticed by the
  build, but which claims it breaks was not found out.  An edit the later files no longer typecheck with
  also counts there as noticed.
* "Failed" means that the proof as written no longer goes through.  A theorem that depends on an admitted
  lemma may still be true of the edited model.
* Two rows (`F12`, `E8`) are void, because the edit does not typecheck with the later files; `F12b` and `E8b` replace them.
* Where a row names a file instead of a theorem (`R9`, `NC3`, `NE1`, `TD1`, `TH3`), that file was not built to its end
  and its theorems were not told apart.  In `NC3`, `TH3`, `TT1` and `TT2` a file ran into the time limit.
* Edits that survive are marked as equivalent, or name the theorem added because of them; `A75` and `A76` weaken a hypothesis instead.

## 7. Tests of the model

The code cannot be run here.  As evidence that the model is the code, `TestsTok.v` and `TestsParse.v`
evaluate every assertion of the repository's own test suites on the model: the exact automata of
`construct_nfa`, the determinised and minimised automata of `construct_tokenizer_dfa`, the item sets of
`closure` and `goto`, the full action, goto and error tables of `construct_parser`, and the results of
the `parse`, `parse_error`, `tokenize`, `tokenize_with`, `parser!` and `tokenizer!` tests.  All of them come
out as the tests expect.  These are tests, not proofs, and no claim rests on them.
