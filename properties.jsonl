{"id": "C01", "title": "Longest match", "statement": "Every call of next() on an iterator made by tokenize/tokenize_with that yields a token yields it for the longest prefix of the not yet delivered input that the tokenizer accepts (some pattern's accepting state is reached after exactly that prefix); no longer prefix is accepted.", "quantifier": "all tokenizers (transition tables), all pending inputs of any length, every call in any sequence of calls", "why_tests_cant": "the scan looks arbitrarily far ahead past the last accepting position and pushes the overshoot back; the inputs, tables and call histories are unbounded", "anchors": ["tokenizer/src/tokenizer/iter.rs: TokenizeIterator::next", "tokenizer/src/tokenizer.rs: DFATokenizer::get_next_node, get_accept_index"]}
{"id": "C02", "title": "Earlier pattern wins", "statement": "When several patterns of a built tokenizer match the same (longest) prefix, the token is made by the closure of the pattern that was registered first.", "quantifier": "all lists of patterns, all strings; all hash seeds and iteration orders under which the hash table of minify() does not confuse two different keys (what happens otherwise is C11)", "why_tests_cant": "needs to hold for every combination of overlapping patterns and every string; depends on subset construction, on minimisation and on insertion order into a hash map", "anchors": ["tokenizer/src/dfa.rs: From<TokenizerNFA> for (TokenizerDFA, Vec<DFAConstructWarning>)", "tokenizer/src/dfa.rs: TokenizerDFA::minify", "tokenizer/src/tokenizer.rs: TokenizerBuilder::build"]}
{"id": "C03", "title": "No input lost, duplicated or reordered while tokens flow", "statement": "The items handed to the token makers by consecutive successful next() calls, concatenated in order, followed by what is still pending, are exactly the original input items; look-ahead that was read too far is put back in order.", "quantifier": "all tokenizers, all inputs, any number of calls", "why_tests_cant": "the push-back queue interacts with the underlying iterator over an unbounded history of calls", "anchors": ["tokenizer/src/tokenizer/iter.rs: TokenizeIterator::next (queue, iter)"]}
{"id": "C04", "title": "None means nothing matches", "statement": "next() returns None exactly when no prefix of the pending input (not even the empty one) is accepted; in particular an input that is not fully tokenizable ends the iteration silently, and the items scanned by the failing call are dropped.", "quantifier": "all tokenizers, all pending inputs", "why_tests_cant": "negative statement over all prefixes of all inputs", "anchors": ["tokenizer/src/tokenizer/iter.rs: TokenizeIterator::next"]}
{"id": "C05", "title": "Tokenization terminates", "statement": "Collecting the iterator ends after at most as many tokens as there are input items and every token is non-empty.", "quantifier": "all tokenizers and all inputs (full claim); tokenizers whose start state accepts nothing (provable part)", "why_tests_cant": "termination cannot be observed by a finite test", "anchors": ["tokenizer/src/tokenizer/iter.rs: TokenizeIterator::next"]}
{"id": "C06", "title": "A pattern matches exactly its regular expression", "statement": "The strings accepted by a tokenizer built from one regex are exactly the strings of that regular expression's language.", "quantifier": "all regexes in the supported HIR fragment, all strings", "why_tests_cant": "infinitely many regexes and strings; wrong automaton composition only shows for nested repetitions", "anchors": ["tokenizer/src/nfa.rs: TryFrom<HirKind> for NFA", "tokenizer/src/nfa.rs: TokenizerNFA::try_from"]}
{"id": "C07", "title": "A pattern never misses a match", "statement": "Every string of the regular language denoted by a supported pattern is accepted by the tokenizer built for it.", "quantifier": "all supported regexes, all strings of their language; all hash seeds and iteration orders under which the hash table of minify() does not confuse two different keys (what happens otherwise is C11)", "why_tests_cant": "quantifies over all regexes and strings", "anchors": ["tokenizer/src/nfa.rs: TryFrom<HirKind> for NFA"]}
{"id": "C08", "title": "Unsupported regex features are rejected, supported ones are not", "statement": "build() fails exactly when some pattern fails to parse or contains a byte literal, a byte class, an anchor or a word boundary; the reported error is the first such problem in the order of construction; otherwise it succeeds.", "quantifier": "all lists of patterns", "why_tests_cant": "all HIR trees of any depth", "anchors": ["tokenizer/src/nfa.rs: NFAConstructError, TryFrom<HirKind> for NFA, TryFrom<Vec<&str>> for TokenizerNFA", "tokenizer/src/tokenizer.rs: TokenizerBuilder::build"]}
{"id": "C09", "title": "Determinisation preserves matching", "statement": "After reading any string the deterministic automaton is in an accepting state for pattern i exactly when i is the smallest pattern index whose nondeterministic automaton accepts that string, and it has no transition exactly when no pattern's automaton has any run on the string.", "quantifier": "all nondeterministic automata, all strings of code points", "why_tests_cant": "subset construction with overlapping character ranges: infinite space of automata and words", "anchors": ["tokenizer/src/dfa.rs: From<TokenizerNFA>", "tokenizer/src/dfa.rs: align_by_begin, split_by_end", "tokenizer/src/nfa.rs: epsilon_recursive"]}
{"id": "C10", "title": "Range tables are sound", "statement": "In every state of a built tokenizer the character ranges are non-empty, sorted and pairwise disjoint, so that the lookup of a character finds a transition exactly when some range of the state contains it and then uses that range.", "quantifier": "all built tokenizers, all states, all characters", "why_tests_cant": "splitting of overlapping ranges must be right for every overlap pattern", "anchors": ["tokenizer/src/dfa.rs: align_by_begin, split_by_end, compress_next", "tokenizer/src/tokenizer.rs: get_next_node", "tokenizer/src/lib.rs: CharRange (Borrow, Ord, PartialEq)"]}
{"id": "C11", "title": "Minimisation preserves behaviour", "statement": "minify() does not change, for any string, whether a transition exists and which pattern is accepted, whatever the hash seeds.", "quantifier": "all deterministic automata, all strings, all hash-table iteration orders and seeds", "why_tests_cant": "hash seeds are random per process; the claim quantifies over all of them and over all automata", "anchors": ["tokenizer/src/dfa.rs: TokenizerDFA::minify, create_group_set, compress_next", "tokenizer/src/lib.rs: CharRange (PartialEq on start only, derived Hash)"]}
{"id": "C12", "title": "Minimised automaton is minimal", "statement": "Any two different states of the automaton produced by minify() are told apart by some string: after it exactly one of them is stuck, or they accept different patterns.", "quantifier": "all deterministic automata, all hash orders (under which the hash table does not confuse two different keys, see C11)", "why_tests_cant": "distinguishing strings have unbounded length", "anchors": ["tokenizer/src/dfa.rs: TokenizerDFA::minify"]}
{"id": "C13", "title": "Conflict warnings are exact", "statement": "build() reports EndConflict(j, i) exactly when i<j are consecutive among the patterns that all accept one common string, where a pattern accepts what a tokenizer built from it alone accepts (for the expressions of C06 these are exactly the matches). No warning therefore means that no two patterns overlap.", "quantifier": "all pattern lists", "why_tests_cant": "the common string may have any length", "anchors": ["tokenizer/src/dfa.rs: DFAConstructWarning, From<TokenizerNFA>"]}
{"id": "C14", "title": "Building a tokenizer terminates without panic", "statement": "For every list of supported patterns build() terminates and does not panic; in particular every lookup in its pointer maps succeeds.", "quantifier": "all pattern lists", "why_tests_cant": "termination of three work-list loops on unbounded inputs", "anchors": ["tokenizer/src/nfa.rs: TokenizerNFA::try_from, NFA::clone, epsilon_recursive", "tokenizer/src/dfa.rs: From<TokenizerNFA>, minify", "tokenizer/src/tokenizer.rs: DFATokenizer::new"]}
{"id": "C15", "title": "End-to-end maximal munch", "statement": "Tokenizing any input with a built tokenizer yields exactly the token sequence of the declarative maximal-munch specification over the patterns' languages: longest match first, ties to the earlier pattern, stop at the first position where nothing matches.", "quantifier": "all pattern lists (in the fragment where C06 holds) without a pattern that matches the empty string (with one the iteration does not end, C05), all inputs; all hash seeds and iteration orders under which the hash table of minify() does not confuse two different keys (what happens otherwise is C11)", "why_tests_cant": "composition of all stages over unbounded inputs", "anchors": ["tokenizer/src/tokenizer.rs: TokenizerBuilder::build", "tokenizer/src/tokenizer/iter.rs: TokenizeIterator::next"]}
{"id": "C16", "title": "tokenizer! macro agrees with the builder", "statement": "The tokenizer returned by the function generated by tokenizer! accepts the same strings with the same pattern indices as the one TokenizerBuilder builds from the same patterns, and uses the i-th generator expression for the i-th pattern.", "quantifier": "all rule lists, all inputs; all hash seeds and iteration orders under which the hash table of minify() does not confuse two different keys (what happens otherwise is C11)", "why_tests_cant": "the generated code is a function of the tables; must hold for all tables", "anchors": ["tokenizer_generator/src/lib.rs: tokenizer"]}
{"id": "C17", "title": "Token makers get the matched text and items", "statement": "The closure of the winning pattern is called with the text obtained by mapping exactly the matched items to characters, in order, and with exactly those items; tokenize is tokenize_with for the identity map.", "quantifier": "all tokenizers, item types, map functions, inputs", "why_tests_cant": "all inputs and look-ahead patterns", "anchors": ["tokenizer/src/tokenizer/iter.rs: Tokenize::tokenize, tokenize_with, TokenizeIterator::next"]}
{"id": "C18", "title": "Tokenizers do not depend on hash seeds", "statement": "Two tokenizers built from the same patterns under different hash seeds / iteration orders give the same tokens on every input.", "quantifier": "all pairs of seeds, all pattern lists, all inputs", "why_tests_cant": "seeds are random", "anchors": ["tokenizer/src/dfa.rs: minify, From<TokenizerNFA>", "tokenizer/src/tokenizer.rs: DFATokenizer::new"]}
{"id": "C19", "title": "Laziness of the scan", "statement": "One call of next() pulls from the underlying iterator exactly the items up to and including the first one on which the tokenizer's automaton has no transition; items after it are not pulled. If no pattern contains an empty character class or an empty alternation, this is exactly the first item after which no continuation of the text could be accepted by any pattern: as long as some continuation could still match, one more item is read, and as soon as none can, reading stops. With an empty class in a pattern one call may read further than that.", "quantifier": "all tokenizers and inputs", "why_tests_cant": "all inputs, all pattern sets", "anchors": ["tokenizer/src/tokenizer/iter.rs: TokenizeIterator::next", "tokenizer/src/nfa.rs: TryFrom<HirKind> for NFA", "tokenizer/src/dfa.rs: TokenizerDFA"]}
{"id": "C20", "title": "Nullable and FIRST sets are exact", "statement": "The sets used for look-aheads are exact: a symbol is in the null set iff it derives the empty string; terminal t is in FIRST(X) iff X derives some string of symbols starting with t.", "quantifier": "all grammars", "why_tests_cant": "fixpoints over arbitrary grammars", "anchors": ["parser/src/parser.rs: calc_null, calc_first, get_first"]}
{"id": "C21", "title": "Accepted inputs are derivable (soundness)", "statement": "If parse returns Ok for a grammar without error rules, the token sequence is derivable from the start symbol, and the returned value is the bottom-up evaluation of such a derivation tree whose leaves are exactly the input tokens in order.", "quantifier": "all grammars (even with conflicts), all inputs, all reducers", "why_tests_cant": "all grammars and inputs", "anchors": ["parser/src/iter.rs: Parse::parse", "parser/src/parser.rs: LR1Parser::new"]}
{"id": "C22", "title": "Derivable inputs are accepted (completeness)", "statement": "If LR1Parser::new gives no warnings, every token sequence derivable from the start symbol is accepted (provided the reducers succeed), also when the grammar additionally has error rules.", "quantifier": "all conflict-free grammars, all derivable inputs", "why_tests_cant": "all grammars and inputs", "anchors": ["parser/src/iter.rs: Parse::parse", "parser/src/parser.rs: LR1Parser::new, calc_table, calc_closure, calc_goto"]}
{"id": "C23", "title": "Without error rules the parser decides the language", "statement": "For a grammar without warnings and without error rules and reducers that never fail, parse terminates on every token sequence and returns Ok iff it is derivable and Err(RecoveryRuleNotFound) otherwise; it never panics.", "quantifier": "all conflict-free grammars, all inputs (full claim); those in which every symbol used derives some token sequence, and those without cycles and hidden left recursion (provable parts; the former also with error rules, as long as no two error symbols can be next to each other in a derived string: a syntax error is detected exactly on the inputs that are not derivable)", "why_tests_cant": "all grammars and inputs, includes termination", "anchors": ["parser/src/iter.rs: Parse::parse", "parser/src/parser.rs: LR1Parser::new"]}
{"id": "C24", "title": "No warnings means unambiguous", "statement": "If LR1Parser::new returns no warnings then every token sequence has at most one derivation tree.", "quantifier": "all grammars, all inputs (full claim); grammars whose start symbol does not derive itself (provable part)", "why_tests_cant": "ambiguity is undecidable in general; trees are unbounded", "anchors": ["parser/src/parser.rs: calc_table, CalcTableWarning"]}
{"id": "C25", "title": "Reducers run bottom-up, once per node, first error wins", "statement": "For a derivable input of a conflict-free grammar the result of parse is exactly the left-to-right post-order evaluation of the derivation tree with the rules' reducers; the first reducer error aborts the parse and is returned as ErrorInReducer. So for a grammar without warnings, without error rules and with a start symbol that cannot be rewritten to itself, parse returns v exactly when v is a value of the input along some derivation.", "quantifier": "all conflict-free grammars with non-cyclic start symbol, all derivable inputs, all reducers", "why_tests_cant": "all grammars, inputs and reducers", "anchors": ["parser/src/iter.rs: Parse::parse (Action::Reduce)"]}
{"id": "C26", "title": "Reducers are called with arguments of the shape of their rule", "statement": "Whenever parse calls the reducer of a rule, the argument list has the length of the rule's right-hand side and position by position is NonTerminal / Terminal / Error as in the rule; each Terminal argument is an input token with the rule's token index, and they occur in input order.", "quantifier": "all grammars (with or without error rules, conflicts), all inputs, every reduce step including after recovery", "why_tests_cant": "recovery rewinds and re-reads tokens, so index bookkeeping must be right on all histories", "anchors": ["parser/src/iter.rs: Parse::parse"]}
{"id": "C27", "title": "LR1Parser::new panics only on undefined symbols", "statement": "LR1Parser::new terminates, and does not panic when every non-terminal that occurs (and the start symbol) has a rule.", "quantifier": "all grammars", "why_tests_cant": "all grammars, termination", "anchors": ["parser/src/parser.rs: LR1Parser::new, calc_closure (rules[&non_terminal])"]}
{"id": "C28", "title": "parse never panics", "statement": "parse panics exactly when one of the reducers it calls panics; otherwise it never panics (no failed unwrap, index out of range, unreachable!), whatever the tokens are.", "quantifier": "all grammars, all inputs (full claim); non-empty inputs or grammars without error rules (provable part)", "why_tests_cant": "all inputs, all recovery histories", "anchors": ["parser/src/iter.rs: Parse::parse"]}
{"id": "C29", "title": "parse terminates", "statement": "parse returns for every finite token sequence.", "quantifier": "all grammars and inputs (full claim); conflict-free grammars, with or without error rules, in which every symbol used derives some token sequence and no two error symbols can be next to each other in a derived string, and derivable inputs of all conflict-free grammars (provable part; C63 has a second part, for grammars with conflicts)", "why_tests_cant": "termination", "anchors": ["parser/src/iter.rs: Parse::parse"]}
{"id": "C30", "title": "Conflict resolution", "statement": "In every parser state, on every look-ahead: if the token can be shifted it is shifted; otherwise, at end of input in the accepting configuration the parser accepts; otherwise among the possible reductions the one of the rule registered first is taken; if none is possible it is a syntax error.", "quantifier": "all grammars, states, look-aheads", "why_tests_cant": "all grammars", "anchors": ["parser/src/parser.rs: calc_table"]}
{"id": "C31", "title": "Warnings are exact", "statement": "A ShiftReduce/ReduceReduce warning is produced iff some reachable parser state has, for one look-ahead, a possible shift and a possible reduction / two possible reductions (reductions competing with acceptance at end of input excepted). Each such conflict is reported exactly once: the list has one warning per state, losing rule and look-ahead.", "quantifier": "all grammars", "why_tests_cant": "all grammars", "anchors": ["parser/src/parser.rs: calc_table, CalcTableWarning"]}
{"id": "C32", "title": "Parser does not depend on hash order", "statement": "Two parsers built from the same syntax under different hash iteration orders give the same result on every input (state numbers may differ), and call the same reducers with the same arguments in the same order, also when the reducers have effects. Their warnings are the same up to order, each as many times.", "quantifier": "all grammars, all pairs of iteration orders, all inputs", "why_tests_cant": "hash seeds are random per process", "anchors": ["parser/src/parser.rs: LR1Parser::new, calc_all_goto, calc_table"]}
{"id": "C33", "title": "Errors are detected at the first impossible token", "statement": "For a conflict-free grammar no error is raised while the tokens read so far (including the look-ahead) are a prefix of a derivable sequence; and a token is only shifted if the shifted tokens are a prefix of a sentential form of the grammar.", "quantifier": "all conflict-free grammars, all inputs", "why_tests_cant": "prefixes and continuations are unbounded", "anchors": ["parser/src/iter.rs: Parse::parse"]}
{"id": "C34", "title": "The error slice names the offending tokens", "statement": "The slice passed to an Error argument of a reducer contains the token at which the syntax error was detected.", "quantifier": "all grammars with error rules, all inputs (full claim); errors detected at a token (not at end of input) (provable part)", "why_tests_cant": "all recovery histories", "anchors": ["parser/src/iter.rs: Parse::parse (None branch)"]}
{"id": "C35", "title": "Recovery accounts for every token", "statement": "After a successful parse with recovery every input token is either a Terminal argument of some reducer call or inside an Error slice.", "quantifier": "all grammars with error rules, all inputs", "why_tests_cant": "all recovery histories", "anchors": ["parser/src/iter.rs: Parse::parse (None branch, first_index)"]}
{"id": "C36", "title": "Unexpected end of input", "statement": "If a syntax error occurs at end of input and the current state itself cannot start an error rule, parse returns Err(RecoveryRuleNotFound), even if an enclosing construct has an error rule.", "quantifier": "all grammars, all reachable configurations", "why_tests_cant": "all configurations", "anchors": ["parser/src/iter.rs: Parse::parse (is_eoi)"]}
{"id": "C37", "title": "Soundness with recovery", "statement": "If parse returns Ok for a grammar with error rules, the value is the evaluation of a derivation tree (with error leaves) of the start symbol whose token leaves are input tokens in strictly increasing position order and whose error leaves are slices of the input.", "quantifier": "all grammars, all inputs", "why_tests_cant": "all recovery histories", "anchors": ["parser/src/iter.rs: Parse::parse"]}
{"id": "C38", "title": "parser! macro agrees with the builder", "statement": "The parser returned by the function generated by parser! gives the same result on every input as LR1Parser::new on the syntax written with the real token and symbol values, provided different token (symbol) names stand for different enum variants.", "quantifier": "all rule lists, all injective name assignments, all inputs", "why_tests_cant": "all tables and inputs", "anchors": ["parser_generator/src/lib.rs: parser"]}
{"id": "C39", "title": "Alternatives in parser!", "statement": "A rule written with | belongs to the nearest preceding named rule's symbol; unknown symbol or token names, an unknown start name and a leading | make the macro panic; otherwise it panics only if some symbol that is used (or the start symbol) has no rule.", "quantifier": "all rule lists", "why_tests_cant": "all rule lists", "anchors": ["parser_generator/src/lib.rs: parser (above_rule_key), BNFRuleKey"]}
{"id": "C40", "title": "Valid inputs are not disturbed by error rules", "statement": "Adding rules (in particular error rules) that cause no warnings does not change what parse does on any token sequence derivable without them.", "quantifier": "all pairs of grammars without warnings, the second containing the rules of the first, whose start symbol does not derive itself; all inputs derivable in the first; all reducers", "why_tests_cant": "all grammars and inputs", "anchors": ["parser/src/iter.rs: Parse::parse"]}
{"id": "C41", "title": "The augmented start symbol is fresh", "statement": "The internal start symbol chosen by LR1Parser::new differs from every non-terminal occurring in the rules, its rule is never reduced and its reducer is never called.", "quantifier": "all grammars, all inputs", "why_tests_cant": "all grammars", "anchors": ["parser/src/parser.rs: LR1Parser::new (start_symbol, start_rule)"]}
{"id": "C42", "title": "Quantifier greediness is irrelevant", "statement": "Greedy and lazy variants of a repetition build tokenizers with the same behaviour.", "quantifier": "all regexes", "why_tests_cant": "all regexes and strings", "anchors": ["tokenizer/src/nfa.rs: HirKind::Repetition"]}
{"id": "C43", "title": "parse follows a table-free reference semantics, recovery included", "statement": "parse behaves exactly like the following abstract parser that knows the grammar but no tables: shift if some item valid for the symbols recognised so far asks for the next token; else accept a complete start rule at the end; else reduce by the earliest complete rule; else recover: keep the longest run of recognised symbols behind which an error rule (one of those in use, if there are any) can start, at the end of the input only all of them, replace the rest by an error symbol that covers everything from the first dropped symbol to the lookahead, and read on behind the first dropped token (or at the lookahead, if nothing was dropped); an error rule stays in use until one of the rules in use is reduced; if there is no such place return Err(RecoveryRuleNotFound). It returns the same result, leaves the same tokens in the iterator, panics and diverges in exactly the same cases.", "quantifier": "all grammars (with conflicts, error rules, unproductive or undefined symbols), all reducers, all inputs, all hash orders of the construction", "why_tests_cant": "equivalence of two parsers over all grammars and inputs", "anchors": ["parser/src/iter.rs: Parse::parse", "parser/src/parser.rs: LR1Parser::new"]}
{"id": "C44", "title": "parse is lazy", "statement": "parse takes tokens from the iterator only when it needs them as lookahead: if it returns before it has taken the whole input, then it returns the same for every other continuation of the tokens it took, and the rest of the iterator is untouched and usable afterwards.", "quantifier": "all parsers, inputs and continuations", "why_tests_cant": "all continuations of all inputs", "anchors": ["parser/src/iter.rs: Parse::parse"]}
{"id": "C45", "title": "Reducers receive values of the right kind", "statement": "A value that a reducer receives for a nonterminal A of its rule was returned, earlier in the same run, by the reducer of a rule for A, and the value returned by parse was returned by the reducer of a rule for the start symbol. So if the reducers keep a property of the values of each nonterminal (such as being a certain enum variant), every value received has it: the `unreachable!()` of an `if let [NonTerminal(V::A(..)), ..] = list` is unreachable. Also after error recovery.", "quantifier": "all grammars (also conflicting), reducers, inputs; all properties that the reducers keep", "why_tests_cant": "all runs, recovery histories included, of all grammars", "anchors": ["parser/src/iter.rs: Parse::parse", "example/src/main.rs: reducers"]}
{"id": "C46", "title": "The example calculator parses arithmetic correctly", "statement": "The parser built by the example program is made without warnings. For every sequence of tokens it returns the value of the expression (products before sums, both from the left; brackets, signs, sqrt) if the sequence is an expression, and ParseError::RecoveryRuleNotFound otherwise. No sequence is an expression with two different values.", "quantifier": "all token sequences of all lengths, all hash seeds, all implementations of the floating point operations", "why_tests_cant": "infinitely many expressions of unbounded nesting; absence of a second reading is a universal claim", "anchors": ["example/src/main.rs: main (parser, 40-84), Token, ParseResult", "parser/src/parser.rs: LR1Parser::new", "parser/src/iter.rs: Parse::parse"]}
{"id": "C47", "title": "The example calculator splits a line correctly", "statement": "The tokenizer built by the example program can be built. For every line, the tokens it gives are those of the longest lexemes from left to right (numbers as in f64::from_str without sign, operators, brackets, sqrt, any other character skipped), for every hash seed; the lexemes together are the line; the unwrap() of the number is never reached with a text that is not a number.", "quantifier": "all lines, all hash seeds", "why_tests_cant": "all strings; hash seeds are random per process", "anchors": ["example/src/main.rs: main (tokenizer, 28-39)", "tokenizer/src/tokenizer.rs: TokenizerBuilder::build, TokenizeIter::next"]}
{"id": "C48", "title": "The example program answers every line", "statement": "Every turn of the main loop ends: it prints the value of the line if the line is an expression and the error otherwise; it neither panics (unreachable!() is not reached) nor hangs, and the answer depends on this line only. The loop does not end at the end of the input.", "quantifier": "all input lines, all numbers of turns, all hash seeds", "why_tests_cant": "all histories of lines and all seeds", "anchors": ["example/src/main.rs: main (loop, 86-99)"]}
{"id": "C49", "title": "Patterns do not influence each other", "statement": "For any list of regular expressions, the tokenizer built from all of them gives a text to the first pattern whose own one-pattern tokenizer accepts that text, reports a conflict exactly when the one-pattern tokenizers overlap, and cuts every input by longest match over the one-pattern tokenizers. Adding a pattern never changes what another one accepts.", "quantifier": "all pattern lists (for the tokens of a whole input: none of which accepts the empty string, C05), all inputs, all maps from items to characters, all hash seeds of the one-pattern builds", "why_tests_cant": "all patterns share one automaton graph whose nodes are merged, split and minimised; an influence may need a specific combination of patterns and a specific text", "anchors": ["tokenizer/src/nfa.rs: TokenizerNFA::new", "tokenizer/src/dfa.rs: From<TokenizerNFA>, minify", "tokenizer/src/tokenizer.rs: TokenizerBuilder::build", "tokenizer/src/tokenizer/iter.rs: next"]}
{"id": "C50", "title": "Parsing takes linear time", "statement": "For a grammar without conflict warnings all of whose symbols derive something there is a constant, depending on the grammar only (not on reducers, token or value types or hash seeds), such that parse() on n tokens finishes within constant*(n+1) turns of its loop and calls reducers at most so often; with error rules this holds for the inputs that are in the language.", "quantifier": "all such grammars, all reducers, all inputs", "why_tests_cant": "a bound over inputs of every length; chains of empty and unit reductions could grow with the stack", "anchors": ["parser/src/iter.rs: LR1Parser::parse", "parser/src/parser.rs: LR1Parser::new"]}
{"id": "C51", "title": "Exactly the self-deriving start symbols escape the warnings", "statement": "For a grammar without warnings, every token sequence has at most one derivation tree if and only if the start symbol does not derive itself (or the language is empty); if it derives itself, every derivable sequence has several trees.", "quantifier": "all grammars without warnings, all token sequences", "why_tests_cant": "all derivation trees of all sequences; the equivalence says that no other ambiguity is missed", "anchors": ["parser/src/parser.rs: calc_table, LR1Parser::new", "parser/src/iter.rs: LR1Parser::parse"]}
{"id": "C52", "title": "Rules compare and hash lawfully", "statement": "Rule implements Eq, PartialOrd, Ord and Hash according to their contracts: == is an equivalence, partial_cmp and cmp agree, cmp is a total order consistent with ==, equal rules hash equally. Two rules are equal exactly when they have the same left side and the same symbols, whatever their closures are. The same holds for the items reported in warnings; distinct items write different values into the hasher. Two syntaxes are equal exactly when they have equal rules in the same order and the same start symbol.", "quantifier": "all rules, all triples of rules, all closures", "why_tests_cant": "laws over all pairs and triples of values", "anchors": ["parser/src/syntax.rs: impl PartialEq/PartialOrd/Ord/Hash for Rule, TerminalSymbol", "parser/src/parser.rs: impl PartialEq/PartialOrd/Ord/Hash for LR1ItemInterop, SymbolInternal"]}
{"id": "C53", "title": "CharRange compares and hashes lawfully", "statement": "CharRange implements Eq, Ord, Hash and Borrow<u32> according to their contracts; in particular equal ranges have equal hashes.", "quantifier": "all ranges", "why_tests_cant": "laws over all pairs and triples of values", "anchors": ["tokenizer/src/lib.rs: CharRange and its impls"]}
{"id": "C54", "title": "The macros read exactly their notation", "statement": "The input of parser! and of tokenizer! is accepted exactly when it is written in the notation of the macro: optional visibility, fn, name, (), ->, LR1Parser or DFATokenizer, and in braces the token list, the symbol list, errortype, start and the rules (respectively character, token and the patterns), with an optional separator after the last item of a list. The tokens, symbols, start symbol, alternatives (| continues the rule above), right-hand sides (<name>, [name], \"string\", ERROR), patterns, expressions and their order that the macro works with are the written ones; nothing is skipped, and no input can be read in two ways.", "quantifier": "all token streams given to the macros; all parsers for Rust visibilities, paths, types, patterns and expressions that read complete pieces before the tokens that have to follow them", "why_tests_cant": "there are infinitely many macro inputs, and a test only shows that the inputs it contains are read as intended; that no other input is silently accepted or read differently concerns all of them", "anchors": ["parser_generator/src/lib.rs: TokenKey, TokenItem, TokenList, SymbolItem, SymbolList, BNFTerminalSymbol, BNFSymbol, BNFRuleKey, BNFRule, ParserGeneratorInput", "tokenizer_generator/src/lib.rs: TokenizerRule, TokenizerGeneratorInput"]}
{"id": "C55", "title": "Reading a macro input terminates and panics only on arguments", "statement": "Reading the input of parser! and tokenizer! always ends, with a result or with a syntax error; it panics exactly when the function in it is written with a non-empty argument list (the assertion \"argument count of parser function should be zero\").", "quantifier": "all token streams given to the macros; same parsers for Rust syntax as in C54", "why_tests_cant": "the reading loops could fail to advance, or an unwrap could fail, on token streams no test contains", "anchors": ["parser_generator/src/lib.rs: BNFRule::parse, ParserGeneratorInput::parse", "tokenizer_generator/src/lib.rs: TokenizerGeneratorInput::parse"]}
{"id": "C56", "title": "What any set of patterns accepts", "statement": "For every supported pattern there is a regular expression, computed from the pattern alone, such that in any tokenizer a string is accepted for a pattern exactly when it is in the language of that expression and in none of those of earlier patterns; the tokens of an input are those of maximal munch over these expressions, and the warnings are their overlaps. The language of the expression contains that of the pattern, and equals it for the class of C06; (ab*)? for instance stands for b*|ab*.", "quantifier": "all lists of patterns of any size (for the tokens of a whole input: none of which accepts the empty string, C05), all strings and inputs, all iteration orders and all hash seeds that do not confuse keys (for the warnings: all seeds)", "why_tests_cant": "tests compare finitely many patterns on finitely many strings; the deviation of the accepted from the written expression concerns all patterns with nested ?, * and +", "anchors": ["tokenizer/src/nfa.rs: NFA::new", "tokenizer/src/tokenizer.rs: DFATokenizerBuilder::build"]}
{"id": "C57", "title": "parse works on any iterator", "statement": "parse takes tokens from its iterator one at a time and only when it has none left to look at. It returns exactly what it returns on the list of the tokens it has taken; it calls next at most once more after the last of them, to learn that the input has ended, and never again after it has been told so. It leaves the iterator just behind the last token it took, panics or hangs because of the iterator only if that very call does, and can refuse an endless input.", "quantifier": "all grammars with and without error rules, all iterators (endless, panicking, not fused, with any internal state)", "why_tests_cant": "all iterators with their whole future behaviour", "anchors": ["parser/src/iter.rs: Parse::parse (40-172)"]}
{"id": "C58", "title": "The token iterator works on any iterator and closure", "statement": "One call of next on the token iterator takes first the items it pushed back earlier and then new items, applies the closure once to each of them in order, stops at the first one on which no pattern can continue or at the end of the input, makes the token from the longest accepted prefix and pushes back exactly the other items it looked at. It panics only if the iterator or the closure does. Over the whole run the closure may be called more than once on the same item.", "quantifier": "all tokenizers, all iterators, all closures with internal state, all states of the token iterator", "why_tests_cant": "all iterators and stateful closures", "anchors": ["tokenizer/src/tokenizer/iter.rs: TokenizeWith::next (43-80), Tokenize, tokenize, tokenize_with (13-41)"]}
{"id": "C59", "title": "From text to value", "statement": "text.tokenize(tokenizer).parse(parser), with both stages lazy: for patterns that do not accept the empty string and a warning-free grammar without error rules and unproductive symbols, the result is the value of the derivation tree of the tokens given by maximal munch, or the not-found error if these tokens are not in the language of the grammar; it always returns.", "quantifier": "all pattern lists, all such grammars, all finite inputs from any iterator, all hash orders", "why_tests_cant": "all inputs, grammars and pattern lists", "anchors": ["tokenizer/src/tokenizer/iter.rs: next", "parser/src/iter.rs: Parse::parse", "tokenizer/src/tokenizer.rs: build", "parser/src/parser.rs: LR1Parser::new"]}
{"id": "C60", "title": "Effects of reducers happen in evaluation order", "statement": "Reducers may read and write state outside their arguments (counters, symbol tables). On a derivable input of a conflict-free grammar, parse started in any state gives the result, and leaves the state, of evaluating the derivation tree from left to right, children before their parent, each reducer run once in the state left by the one before; when a reducer fails or panics, the state is the one it left. A success of a parser with warnings (no error rules) is the evaluation of one derivation tree, effects included. Effects do not keep parse from returning.", "quantifier": "all conflict-free grammars with non-cyclic start symbol, all derivable inputs, all reducers with effects on a state of any type, all initial states", "why_tests_cant": "all grammars, inputs, reducers and states; in particular reducers that answer differently when called again with the same arguments", "anchors": ["parser/src/iter.rs: Parse::parse (Action::Reduce)", "parser/src/syntax.rs: Rule (Box<dyn Fn>)"]}
{"id": "C61", "title": "Reducers do not steer the parser", "statement": "How an input is parsed depends only on the rules and the kinds of the tokens. Two parsers of the same grammar with different reducers, value types, token types and effects, on inputs of the same token kinds, call reducers of the same rules, in the same order, with the tokens at the same positions, until a reducer fails; if none fails they both accept, both report a syntax error, both panic or both keep running, after taking the same number of tokens. This includes error recovery.", "quantifier": "all grammars, all pairs of reducer families, value and token types, all inputs with equal kinds, runs of every length", "why_tests_cant": "quantifies over pairs of programs and all inputs", "anchors": ["parser/src/iter.rs: Parse::parse"]}
{"id": "C62", "title": "One token of lookahead: when tokens are taken relative to the reducer calls", "statement": "Suppose the iterator given to parse and the reducers share state (a tokenizer that consults a symbol table which the reducers fill, say). Then tokens are taken and reducers are called in the order of an evaluation of the derivation tree from left to right, children before parents, in which exactly one token has been taken in advance: the first token is taken before anything else, each further token (or the end) is taken at once when the one before it becomes part of the tree, and never at another time. In particular when a reducer runs, the iterator has been asked for exactly one item beyond the tokens covered so far, and it is not asked again after its end. The result, an error or panic of a reducer, a panic of the iterator, and the state left behind are those of this evaluation. For a grammar without error rules every success is such an evaluation, and (warning-free and productive, or with any warnings but without cycles and hidden left recursion as in C63) parse returns within a number of steps linear in any bound on the tokens still to come.", "quantifier": "every state type, every iterator and all reducers over it, every grammar (warning-free and not self-deriving for the first part), every tree", "why_tests_cant": "A test sees one interleaving for one grammar and input; that no grammar and no input makes the parser look one token further, or call a reducer before the lookahead is taken, needs an invariant over all runs, with tokens that depend on what reducers did before.", "anchors": ["parser/src/iter.rs: LR1Parser::parse (51-59, 73-113)", "parser/src/syntax.rs: Rule::generator"]}
{"id": "C63", "title": "Conflicts do not make parse run forever", "statement": "Call a nonterminal bad if it can be rewritten to itself alone (a cycle) or to a string in which it stands again behind symbols that derive the empty string (hidden left recursion). If no nonterminal that occurs in a string derived from the start symbol is bad, then parse returns on every input even though the grammar was reported with conflict warnings and whether or not all symbols derive something; with error rules this also needs every symbol to derive something and no two neighbouring error symbols. Without error rules the number of turns of the loop and of reducer calls is at most a constant, given by the rules alone, times the number of tokens plus one. Both conditions are needed. They can be checked with a table of numbers for the nonterminals.", "quantifier": "all grammars with any warnings and without these two defects, all reducers, all inputs", "why_tests_cant": "termination and a linear bound for every ambiguous grammar and every input; whether a wrongly resolved conflict ends in an endless series of reductions depends on the whole table", "anchors": ["parser/src/iter.rs: LR1Parser::parse", "parser/src/parser.rs: LR1Parser::new (conflict resolution)"]}
{"id": "C64", "title": "The ways to write down a grammar agree", "statement": "Rule::new, Rule::new_raw (with the enum indices) and Rule::builder (with one call per symbol) make the same rule of the same symbols: the left side and the symbols are the classes of the examples given (two tokens or values with the same enum index mean the same symbol), in the order given, error symbols included, and the reducer is the one given. Syntax::builder keeps the rules in the order of the calls, and build and build_raw agree.", "quantifier": "all value and token types with their index functions, all symbol lists, all reducers", "why_tests_cant": "every chain of builder calls of every length over every type; a dropped or reordered symbol may leave a grammar that still accepts the tested inputs", "anchors": ["parser/src/syntax.rs: Rule::new, Rule::new_raw, RuleBuilder, SyntaxBuilder"]}
{"id": "C65", "title": "Rule order and unreachable rules", "statement": "Two grammars with the same start symbol that consist of the same rules in any order, apart from rules whose left-hand side cannot be reached from the start symbol, behave alike when one of them is built without warnings: the other is built without warnings too (if it has a rule for the start symbol it is built whenever the first is), and on every token sequence both parsers return the same result and leave the same tokens in the iterator, or both panic, or both run forever. Unreachable rules inserted anywhere never matter, even with warnings, as long as the other rules keep their order. With warnings the order of the rules does decide.", "quantifier": "all pairs of grammars with the same reachable rules, with or without error symbols, all reducers, all hash orders, all token sequences", "why_tests_cant": "a test compares a few permutations of one grammar on a few inputs; rule numbers enter the item sets, the state numbers, the conflict resolution and the recovery tables, and only a proof shows that none of this is visible", "anchors": ["parser/src/parser.rs LR1Parser::new", "parser/src/parser.rs generate_parse_table", "parser/src/iter.rs parse", "parser/src/syntax.rs SyntaxBuilder::rule"]}
{"id": "C66", "title": "Pattern order", "statement": "Patterns that are registered without any construction warning can be registered in any other order: the build succeeds again, again without warnings, and every sequence of calls on every input gives the same tokens and leaves the same items. Whatever the warnings, the order never changes where the tokens end, how many tokens there are or how many items a call takes; it only decides which of the overlapping patterns makes the token. If two patterns overlap, some input shows their order.", "quantifier": "all pattern lists and permutations of them, all hash orders of both builds, all token makers and inputs", "why_tests_cant": "pattern numbers enter the combined automaton, its determinisation, its minimisation and the token table; a test compares a few orders on a few inputs", "anchors": ["tokenizer/src/tokenizer.rs TokenizerBuilder::pattern", "tokenizer/src/tokenizer.rs TokenizerBuilder::build", "tokenizer/src/nfa.rs TryFrom<Vec<Hir>> for TokenizerNFA", "tokenizer/src/tokenizer/iter.rs TokenizeIterator::next"]}
{"id": "C67", "title": "The token iterator works with any Tokenizer", "statement": "tokenize and tokenize_with accept any implementation of the public trait Tokenizer, and the underlying iterator, the closure and the token makers may share state, have effects and panic. A call of next looks at the pushed back items first and then at new ones, mapping each to its character before it takes another, and stops at the first item with which the tokenizer has no way on, or at the end of the iterator. Then the maker of the longest accepted prefix is called once, with its text and items, and the rest is pushed back; if no prefix is accepted the result is None. If the methods of the tokenizer do not panic, only the iterator, the closure or that maker can make the call panic. On a text the tokens are those of maximal munch with the language of the tokenizer, and the makers run once per token in the order of the text. DFATokenizer, by value or by reference, is one such implementation.", "quantifier": "all implementations of the trait (with methods that answer the same every time), all iterators, closures and makers with arbitrary shared state, all inputs", "why_tests_cant": "a test has one tokenizer, one input and makers without effects; which prefix wins and when each closure runs must hold for every implementation and every input", "anchors": ["tokenizer/src/tokenizer/iter.rs Tokenizer, TokenizeIterator, Tokenize", "tokenizer/src/tokenizer.rs impl Tokenizer for DFATokenizer, impl Tokenizer for &DFATokenizer"]}
{"id": "C68", "title": "The work of tokenizing is at most quadratic", "statement": "If no pattern matches the empty text, taking all tokens of a text of n items calls the closure of tokenize_with (once for every item looked at) at most n(n+1)/2 times and makes at most n tokens. If in addition every beginning of a match is at most b items longer than a match it starts with, the calls are at most n + (b+1)(number of tokens + 1). Without this condition the quadratic bound is attained: with the patterns a and a*b, on n times a, exactly n(n+1)/2 calls are made for every n.", "quantifier": "all built tokenizers, all closures, all texts; in the lower bound all lengths", "why_tests_cant": "a bound on the work must hold for every text length and every set of patterns; tests measure a few", "anchors": ["tokenizer/src/tokenizer/iter.rs TokenizeIterator::next"]}
{"id": "C69", "title": "Exactly when parse panics", "statement": "parse panics exactly in two cases: one of the reducers it calls panics, or the input is empty and the parser reduces by a rule with an error symbol (no token can stand in its slice). If every rule with an error symbol also has a token, or a nonterminal that does not derive the empty sequence, only the first case can occur, on any input.", "quantifier": "all grammars (with warnings and error rules too), all hash orders, all inputs", "why_tests_cant": "the absence of every other panic (failed unwrap, index out of range, unreachable!) ranges over all inputs and recovery histories", "anchors": ["parser/src/iter.rs: Parse::parse"]}
{"id": "C70", "title": "How conflicts are resolved", "statement": "For every grammar, with any warnings: when parse succeeds without a syntax error, its value is that of one particular derivation tree of the tokens, the preferred one: compared with any other derivation tree, at the first difference between the steps that build the two trees from left to right it takes the next token where the other applies a rule, or applies a rule that was added earlier (or is finished while the other goes on). So operators A ::= .. A and A ::= A b .. group to the right, an optional tail (else) goes to the nearest possible place, and of two equal rules the later is never used. The preference is not revised: a derivable input can be refused because of it.", "quantifier": "all grammars, all hash orders, all inputs, all derivation trees", "why_tests_cant": "the other trees and the inputs are unboundedly many", "anchors": ["parser/src/parser.rs: LR1Parser::new", "parser/src/iter.rs: Parse::parse"]}
{"id": "C71", "title": "The cost of error recovery", "statement": "For a grammar without warnings and without unproductive symbols, or without cycles and hidden left recursion, there is a constant that depends on the grammar only such that parse, as long as it has not returned, has made at most the constant times (length of the input + 1) times (number of syntax errors detected so far + 1) turns. The number of detected errors itself is not bounded by a polynomial in the length of the input: the conflict-free grammar E ::= a | ( L ) | ( error ), L ::= E | L , E accepts an input of 5n+6 tokens only after 3*2^(n+1)-1 reducer calls, because tokens that were put back are parsed, found wrong and put back again.", "quantifier": "all grammars, hash orders, inputs and numbers of turns; for the lower bound all n and all hash orders", "why_tests_cant": "asymptotic bounds over all inputs; the bad inputs only show when they are long", "anchors": ["parser/src/iter.rs: Parse::parse (recovery branch, symbols put back)", "parser/src/parser.rs: LR1Parser::new (error_rules)"]}
{"id": "C72", "title": "Where parsing resumes after a syntax error", "statement": "If a token stands directly behind every error symbol in the rules (Statement ::= error \";\"), then after a syntax error parse drops tokens, each with its own syntax error, up to the first token that a rule asks for behind the error symbol at that place, without calling a reducer and without going back, and takes that token next; the error symbol stands for everything from where it started up to the last dropped token. If there is no such token left, parse returns Err(RecoveryRuleNotFound); in particular whenever a syntax error is detected and the input has no token that stands behind an error symbol in any rule.", "quantifier": "all grammars with that shape of error rules (with or without warnings), all hash orders, all inputs, all reachable configurations", "why_tests_cant": "all recovery histories and lengths of dropped input", "anchors": ["parser/src/iter.rs: Parse::parse (None branch)", "parser/src/parser.rs: LR1Parser::new (error_rules)"]}
{"id": "C73", "title": "Grammars whose error recovery is fast", "statement": "If the error symbol occurs in one rule only, no two error symbols can be adjacent in a sentence, every symbol is productive, and the grammar is steady (whenever recovery is possible somewhere before a phrase and somewhere inside of it, it is possible directly behind the phrase too, unless nothing can follow there), then parse detects at most 2n+2 syntax errors in an input of n tokens, and if moreover there are no warnings or no cycles and hidden left recursion, it makes at most a constant times (n+1)^2 turns. Statement lists with nested blocks, P ::= P S | S, S ::= E \";\" | \"{\" P \"}\" | error \";\", satisfy the conditions. The grammar of C71 that needs exponential time fulfils all of them except steadiness.", "quantifier": "all grammars with these properties, hash orders, inputs and numbers of turns", "why_tests_cant": "an upper bound over all inputs of all lengths", "anchors": ["parser/src/iter.rs: Parse::parse (recovery branch, symbols put back)", "parser/src/parser.rs: LR1Parser::new (error_rules)"]}
{"id": "C74", "title": "Without warnings: exactly the LR(1) grammars", "statement": "A grammar that builds without warnings is LR(1) in Knuth's sense: in every string that occurs in a rightmost derivation the last step is determined by the string up to the end of the right-hand side it introduced and the one terminal behind. Conversely an LR(1) grammar all of whose symbols are productive builds without warnings. For the usual definition that first adds a new start rule, the grammars without warnings whose start symbol does not derive itself are exactly the LR(1) grammars. (The error symbol counts as an ordinary terminal. Productivity is needed: some LR(1) grammars with unproductive symbols get warnings.)", "quantifier": "all grammars, hash orders, rightmost derivations", "why_tests_cant": "LR(1) quantifies over all pairs of derivations of all lengths", "anchors": ["parser/src/parser.rs: LR1Parser::new (conflict warnings)", "parser/src/parser.rs: LR1Warning"]}
{"id": "C75", "title": "The numbering of the enum variants does not matter", "statement": "The parser identifies tokens and nonterminals by the number of their enum variant. If the same rules, written with examples of the variants, are built under two numberings that group values into the same variants (for instance because the variants of the enum were reordered or new ones were inserted between them), then, whatever the hash orders: the two parsers return the same result on every token sequence and leave the same tokens unread, call the same reducers with the same arguments in the same order, and meet their syntax errors at the same tokens; the warnings are of the same kinds and name the same rules, each as often. Provided the start symbol has a rule, a parser can be made under one numbering exactly when it can be made under the other; without such a rule the construction can panic under one numbering only.", "quantifier": "all rules written with Rule::new, reducers (including failing and panicking ones), pairs of numberings with the same classes, hash orders, token sequences", "why_tests_cant": "a test fixes the enum and thereby one numbering; the states, tables and the internal start symbol are all computed from the numbers", "anchors": ["parser/src/syntax.rs: Rule::new, SyntaxBuilder::build, TerminalSymbol (Ord)", "parser/src/parser.rs: LR1Parser::new", "parser/src/iter.rs: parse"]}
{"id": "C76", "title": "Statement lists recover from each wrong statement by itself", "statement": "Take the rules of a statement X with no empty right-hand side, no error symbol and no end token, and add R ::= X ; R | error ; R | (nothing) with start symbol R. If the parser is built without warnings and every symbol derives some word, then parsing treats the input piece by piece, cut at the end tokens: a piece that is a statement contributes the value of its reducers, whatever the pieces around it are; a piece that is not contributes one call of the error rule, with the tokens of exactly that piece (an empty piece is reported as its end token; a piece of one token that could begin a statement is reported together with its end token). So no right statement is lost to a neighbouring wrong one. When the reducers do not fail, every input that is empty or ends in an end token is parsed to exactly that value, and every other input ends in NotFound. Writing the list the other way round (R ::= R X ; | R error ; | nothing) does not have this property: a right statement before a wrong one is swallowed, and an input beginning with a wrong statement is rejected; nor does a statement language with empty right-hand sides. The construction never fails for such a list: if the parser for X alone is built without warnings, every symbol derives some word and X cannot be rewritten to itself, then the parser for the list is built without warnings too; for X ::= X | a, which has no warnings alone, the list has one.", "quantifier": "all statement grammars of that form, reducers, environments (hash orders), token sequences with any number of wrong statements anywhere", "why_tests_cant": "recovery depends on the states left on the stack by the whole input before the error; a test shows it for one grammar and a few misspelt inputs", "anchors": ["parser/src/iter.rs: parse (error recovery, lines 121-168)", "parser/src/parser.rs: LR1Parser::new", "parser/src/syntax.rs: Rule::new_raw, SyntaxBuilder"]}
{"id": "C77", "title": "Operator tables: precedence and associativity", "statement": "Write the grammar of expressions in the usual way: one nonterminal for each level of precedence, from the loosest to the tightest, each level with any number of operators of one fixity (infix left-associative, right-associative or non-associative, prefix or postfix) and a rule that passes on a tighter expression, and operands and brackets at the tightest level. If the tokens that stand where an operand is due (opening bracket, operands, prefix operators) differ from each other, and so do those that stand behind one (closing bracket, infix and postfix operators), then the parser is built and no conflict is reported; a token may well be both a prefix and an infix operator. The parser returns v just if the input is an expression grouped as the table says (tighter operators first, operators of one level in the direction they associate, brackets as they stand) and the reducers along that grouping give v. There is at most one such grouping, and if the reducers do not fail everything else ends in NotFound. If moreover the infix operators all associate, unary operators are tighter than infix ones, and there is one level of prefix and one of postfix operators at most, then every sequence in which the operators have their operands has such a grouping. With a unary operator looser than an infix one that fails (2 ^ - 1 is rejected), and a token that is an infix operator on two levels gives a conflict.", "quantifier": "all operator tables with any number of levels and operators, reducers, environments (hash orders), token sequences", "why_tests_cant": "tests try one table on a few expressions; the absence of conflicts and the right grouping are claims about all tables and about expressions nested to any depth", "anchors": ["parser/src/parser.rs: LR1Parser::new, calc_table", "parser/src/iter.rs: parse", "parser/src/syntax.rs: Rule::new_raw, SyntaxBuilder"]}
{"id": "C78", "title": "A warning-free grammar used inside another warning-free grammar gives no warnings", "statement": "Let one grammar use a token x for an item and let another grammar describe the items with its start symbol X. Put X for x in the first grammar and add the rules of the second, in any order. If both grammars give parsers without warnings, all their symbols derive some word, they share no token, nonterminal or error symbol, two x never stand next to each other, and X neither derives the empty word nor can be rewritten to itself, then the parser for the whole is built without warnings. Its language consists of the words of the first grammar with a word of X for each x, and (no error rules, reducers that do not fail) parse accepts exactly those token sequences and ends in NotFound on all others. Each of the four conditions - not next to each other, not empty, not rewritten to itself, nothing shared - is needed: leaving out one of them, there are grammars whose combination has a warning.", "quantifier": "all pairs of grammars, the tokens that stand for items, orders of the combined rules, environments (hash orders), token sequences", "why_tests_cant": "a test combines particular grammars; that combining never introduces a conflict is a statement about all LR(1) item sets of all grammars", "anchors": ["parser/src/parser.rs: LR1Parser::new", "parser/src/syntax.rs: Rule::new", "parser/src/iter.rs: LRIterator::parse"]}
{"id": "C79", "title": "Separated lists of items", "statement": "Take any grammar of items X whose parser P0 is built without warnings, in which every symbol derives some word, X derives no empty word and cannot be rewritten to itself, and add L ::= X | L sep X with a separator that the items do not contain. The parser for L is built without warnings. Without error rules, it returns v exactly when the input is a sequence of items with separators between them such that v is computed from the left to the right by the two list reducers from what P0 returns for each item by itself. When the reducers do not fail, everything that is not such a list ends in NotFound. With X ::= X | a, which has no warnings alone, the list has a warning.", "quantifier": "all item grammars, separators, reducers, environments (hash orders), token sequences", "why_tests_cant": "a test uses one item grammar and some lists; the claim is that the parser for the list agrees with the parser for the items on every item of every list", "anchors": ["parser/src/parser.rs: LR1Parser::new", "parser/src/iter.rs: LRIterator::parse"]}
{"id": "C80", "title": "Tokens that are written out are read back", "statement": "Write tokens one after the other as the texts they were made from. Tokenizing the result gives back exactly these tokens - same patterns, same items, nothing merged, split or lost - if and only if each text is accepted by its pattern (and by no earlier one) and no text followed by a non-empty beginning of what is written behind it is accepted by any pattern. In particular, if no pattern matches a text that has both separator characters and other characters, tokens with separator tokens between them are always read back; two tokens written next to each other need not be (4 and 2 become 42).", "quantifier": "all pattern lists none of which accepts the empty string, all sequences of tokens, sets of separator characters, item types, hash seeds that do not confuse keys", "why_tests_cant": "round trips are claimed for every sequence of tokens of every tokenizer; a test tries some texts of one tokenizer", "anchors": ["tokenizer/src/tokenizer/iter.rs: TokenizeIterator::next", "tokenizer/src/tokenizer.rs: DFATokenizerBuilder::build"]}
{"id": "C81", "title": "A helper nonterminal can be written out", "statement": "Replace a nonterminal that occurs in the right-hand side of a rule by each of its own right-hand sides, one new rule for each, with a reducer that calls the helper's reducer on the inner arguments and then the old reducer with its value. If both parsers are made without warnings (no error symbol, no symbol that rewrites to itself), they return the same value for the same inputs; if the reducers also do not fail and all symbols derive something, the two parsers agree on every input. Without the two conditions this fails: writing out one of two occurrences may bring a conflict that loses inputs, and if two reducers fail, the two parsers may report different errors.", "quantifier": "all syntaxes built through the API, all rules and places in them, all reducers, inputs, token and value types, hash seeds", "why_tests_cant": "it relates two parsers on every input; a test compares them on some", "anchors": ["parser/src/parser.rs: LR1Parser::new", "parser/src/iter.rs: LR1Parser::parse", "parser/src/syntax.rs: Rule::new"]}
{"id": "C82", "title": "Which white space there is between words does not matter", "statement": "Let the makers of a tokenizer return an option, and let the separator characters be such that no pattern matches a text in which separators and other characters are mixed, each separator character is matched by some pattern, and the makers return None for a text of separators. Then two inputs that have the same words (what is left when they are cut at the separators) give, after flatten, the same tokens. If a pattern mixes separators and other characters this fails. In particular the example calculator prints the same for two lines that differ only in how many blanks, tabs and line ends there are between the words, before and after them.", "quantifier": "all pattern lists, separator sets, makers, pairs of inputs with the same words, hash seeds", "why_tests_cant": "it relates infinitely many pairs of inputs; a maximal munch that looks one character too far differs only on particular ones", "anchors": ["tokenizer/src/tokenizer/iter.rs: TokenizerIter::next", "tokenizer/src/tokenizer.rs: Tokenizer::new", "example/src/main.rs: main"]}
{"id": "C83", "title": "Translating the patterns neither leaks, nor deadlocks, nor touches freed nodes", "statement": "While the patterns of a tokenizer are turned into a TokenizerNFA, the nodes of the intermediate NFAs are shared by reference counts, point to each other by weak pointers and are guarded by locks. Whatever unused addresses the allocator hands out, no freed node is accessed, no thread waits for a lock it holds itself, no lookup of an address fails, and when the call returns, with a result or with an error for an unsupported pattern, every node has been freed. The result depends only on the patterns, not on the addresses.", "quantifier": "all lists of well-formed patterns, all allocators (also ones that hand out freed addresses again), all starting times", "why_tests_cant": "leaks and addresses depend on the allocator and on every shape of pattern and every point at which an error can occur; reference cycles through nested repetitions need particular patterns", "anchors": ["tokenizer/src/nfa.rs: NFA, NFANode, Edge, NFA::clone, TryFrom<HirKind> for NFA, TryFrom<Vec<Hir>> for TokenizerNFA"]}
{"id": "C84", "title": "Where the nodes lie in memory does not reach the tokenizer", "statement": "The construction of the deterministic automaton compares sets of nodes by the addresses of their boxes and iterates hash sets of pointers. Wherever the boxes were allocated (at any distinct addresses, in any order, with other cells between them) and in whatever order the pointer sets are iterated, the construction ends, and its possible results (states with the same numbers and transitions, accepted patterns and warnings) are the same; in particular every text runs to the same state and is accepted for the same pattern.", "quantifier": "all well-formed nondeterministic automata (all that pattern lists lead to), all placements of their nodes in memory, all iteration orders of the hash sets and hash maps", "why_tests_cant": "addresses and hash seeds change from run to run and from platform to platform; a test sees the few placements of its own runs", "anchors": ["tokenizer/src/dfa.rs: From<TokenizerNFA> for (TokenizerDFA, Vec<DFAConstructWarning>)", "tokenizer/src/nfa.rs: TokenizerNFANode::epsilon_recursive, TokenizerNFANodeRef"]}
{"id": "C85", "title": "Building a tokenizer uses its raw pointers correctly", "statement": "Building a tokenizer keeps the nodes of both automata in boxes and links them by raw pointers that are followed with unsafe code. Whatever addresses the allocator hands out and in whatever order the hash tables are iterated, the build never follows a pointer to a box that is not there (any more), never panics and never frees a box twice; when it returns, with a tokenizer or with an error, every box has been freed; and the tokenizer, the warnings or the error are those of a build described by positions instead of pointers, so its tokens are the ones promised.", "quantifier": "all lists of patterns the regex parser can deliver, all allocators that do not hand out an address in use, all iteration orders of the hash tables, all states of the allocator before", "why_tests_cant": "a dangling pointer usually still reads the old bytes, so a test passes; addresses and hash seeds change from run to run", "anchors": ["tokenizer/src/nfa.rs: TokenizerNFANodeRef, TryFrom<Vec<Hir>> for TokenizerNFA", "tokenizer/src/dfa.rs: TokenizerDFANodeRef, From<TokenizerNFA>, TokenizerDFA::minify", "tokenizer/src/tokenizer.rs: DFATokenizer::new, TokenizerBuilder::build"]}
{"id": "C86", "title": "Patterns count only through what they make of each text", "statement": "Two tokenizers give the same tokens on every input exactly when, for every single text, the first pattern that matches it makes the same token in both. So a pattern may be replaced by an equivalent one, a pattern whose matches are all matches of earlier patterns may be deleted, an alternation may be written as two patterns with the same closure, and neighbouring patterns may be swapped if they do not overlap or have the same closure. After such a change the tokenizer can be built again and collects the same tokens; if no pattern contains an alternative that cannot match, every single call agrees too, down to the items taken from the underlying iterator.", "quantifier": "all pairs of pattern lists over supported expressions, all token closures, all inputs, all hash orders and all seeds that do not confuse keys of both builds", "why_tests_cant": "a rewritten list of patterns is compared on all texts and on all ways to cut them, for every list", "anchors": ["tokenizer/src/tokenizer.rs: TokenizerBuilder::pattern, build", "tokenizer/src/tokenizer/iter.rs: TokenizeIterator::next"]}
{"id": "C87", "title": "Integer arithmetic of a build stays in range", "statement": "Building a tokenizer never overflows or underflows `u32`: the build gives the same result whether the crates are compiled with overflow checks (where an overflow would panic) or without (where it would wrap around), and that result is the one of exact arithmetic; so it does not panic. Every range of the resulting table is non-empty and within Unicode, and printing it with `{:?}` does not overflow either: it shows the one character, or the first and the last one.", "quantifier": "all lists of expressions as the regex parser produces them (characters up to U+10FFFF, repetition bounds in order), both ways of compiling, all hash orders and seeds", "why_tests_cant": "the additions and subtractions run on every bound of every pattern and on every range the subset construction splits off; a test sees a few of them, and under one profile", "anchors": ["tokenizer/src/nfa.rs: TryFrom<HirKind> for NFA", "tokenizer/src/dfa.rs: align_by_begin", "tokenizer/src/lib.rs: impl Debug for CharRange", "tokenizer/src/tokenizer.rs: TokenizerBuilder::build"]}
{"id": "C88", "title": "A grammar inside another one computes on the values of the inner one", "statement": "When a token of an outer grammar is replaced by the start symbol of an inner grammar, the parser of the nested grammar returns exactly what parsing in two phases returns: `parse` returns `Ok(v)` for an input if and only if the input is obtained from a sequence of tokens and item values, for which the outer parser returns `Ok(v)`, by writing for each item value some tokens for which the inner parser returns that value. Under the conditions of C78 the parser of the nested grammar is made without warnings.", "quantifier": "all outer and inner grammars without warnings and error rules that share no symbols and whose start symbols do not derive themselves, all reducers, all inputs", "why_tests_cant": "a test shows a few inputs of one pair of grammars; where an item ends is decided by the tables of the nested grammar, not by those of the two parts", "anchors": ["parser/src/parser.rs: LR1Parser::new, LR1Parser::parse", "parser/src/syntax.rs: Syntax, Rule", "parser/src/lib.rs: Symbol"]}
{"id": "C89", "title": "Edits of a text change tokens only locally", "statement": "What a call of `next` on the token iterator returns depends only on the items that were read for it: on a text that continues differently behind them it returns the same and reads the same items. Where a token ends, the rest of the tokens is that of the rest of the text alone. So when a text is edited, all tokens that were read before the edited place stay, and from the first place on where a token ends in both texts the tokens are the same. If no pattern matches a text in which separator characters and others are mixed, a token always ends between a separator and another character as long as the text can be tokenized: words are tokenized independently of each other. The end of the text counts as something that was read.", "quantifier": "all tokenizers, item types, texts, edits, states of the iterator; for the last part all pattern lists, separator sets and hash seeds that do not confuse keys", "why_tests_cant": "a test re-tokenizes one edited text; editors and incremental tools rely on every edit at every place", "anchors": ["tokenizer/src/tokenizer/iter.rs: TokenizeIterator::next", "tokenizer/src/tokenizer.rs: Tokenizer"]}
{"id": "C90", "title": "When no part of the text is ignored", "statement": "The tokens spell every text over some alphabet, from its first to its last character, if and only if each single character of the alphabet is matched by some pattern. Where nothing matches the token iterator ends, and for the parser the input ends there: `text.tokenize(..).parse(..)` does exactly the same for the text and for the part before the first place at which nothing matches, and what follows is silently ignored. With patterns that match every single character the whole text is judged: it is accepted if and only if the tokens that spell it are in the language of the grammar.", "quantifier": "all pattern lists none of which accepts the empty string, alphabets, texts from any iterator, grammars, hash seeds that do not confuse keys", "why_tests_cant": "a test feeds texts its author thought of; that no rest of any text is dropped without an error is a statement about all texts and all characters", "anchors": ["tokenizer/src/tokenizer/iter.rs: TokenizeIterator::next", "parser/src/iter.rs: parse", "example/src/main.rs: .pattern(\".|\\n\", ..)"]}
{"id": "C91", "title": "Growing a language by constructs with their own keywords", "statement": "Take a grammar for which `LR1Parser::new` returns no warnings, and add a rule that begins with a token the grammar does not have (a new keyword), to a nonterminal that can begin with some token, where each nonterminal in the rest of the rule is one the grammar uses, cannot be rewritten to itself, and is directly followed by a token the grammar does not have either. Then `LR1Parser::new` returns no warnings for the grown grammar either, whatever the order of the rules and the hash seeds. On every input without the new keyword the new parser does exactly what the old one does: the same value or error, the same tokens left in the iterator, the same panics, the same divergence; if the new rule comes last, this holds even for grammars with warnings. The same holds for any number of such constructs added one after the other.", "quantifier": "all grammars in which every nonterminal derives something, all such rules, rule orders, hash seeds, inputs, reducers and environments, numbers of constructs", "why_tests_cant": "that no new conflict arises for any grammar, and that no old input is read differently, ranges over all grammars and all inputs", "anchors": ["parser/src/parser.rs: LR1Parser::new", "parser/src/iter.rs: parse"]}
{"id": "C92", "title": "Every nonterminal of a grammar can be parsed on its own", "statement": "If `LR1Parser::new` returns no warnings for a grammar then it returns none for the same rules with any other nonterminal that the grammar uses as the start symbol, whatever the hash seeds. Without error rules that parser accepts exactly the inputs that the nonterminal derives.", "quantifier": "all grammars in which every nonterminal derives something, all nonterminals reachable from the start symbol, hash seeds, inputs", "why_tests_cant": "a statement about the automaton of every grammar and every start symbol", "anchors": ["parser/src/parser.rs: LR1Parser::new", "parser/src/syntax.rs: Syntax", "parser/src/iter.rs: parse"]}
{"id": "C93", "title": "Ambiguous grammars whose tokens tell the constructs apart lose nothing", "statement": "For ambiguous grammars without levels of precedence, such as `E ::= E + E | E * E | E - E | - E | ( E ) | E ( E ) | E ? E : E | if E then E | if E then E else E | n`, `LR1Parser::new` returns warnings and settles the conflicts itself. If in the grammar (any number of nonterminals) no right-hand side is empty, a single nonterminal or has two neighbouring nonterminals, a rule that begins with a nonterminal begins with its own, each token tells the rule and the place where it stands among the places that do not follow an operand, likewise among the places behind an operand for operators and optional tails, and a construct that can end with a token goes on only with tokens that do not stand behind operands, then nothing is lost: `parse` never returns NotFound for a text of the language, it accepts exactly the language when the reducers do not fail and there are no error rules, and the value is that of the one tree that C70 describes (operators group to the right, a tail goes to the nearest place). The conditions are decidable, and a checker for them is given.", "quantifier": "all grammars with these conditions, hash seeds, inputs, reducers and environments", "why_tests_cant": "that resolving conflicts loses no text is a statement about every text of the language and every such grammar; in general it is false", "anchors": ["parser/src/parser.rs: LR1Parser::new", "parser/src/iter.rs: parse"]}
{"id": "C94", "title": "The macros, from the text to what the generated functions do", "statement": "For every text written in `parser! { .. }`: if it is not in the macro's notation there is a compile error; if the function has arguments, a rule uses a token or symbol name that is not listed, the start name is not listed, the first rule is written with `|`, or a used symbol has no rule, the macro panics; otherwise it generates a function that returns a parser for exactly the rules written in the text, in their order, each for the symbol named in front (for `|`, in front of the nearest rule above that has a name), with the start symbol given, and with the reducers written. That parser gives on every input the same result, remaining input, reducer calls and error slices as `LR1Parser::new` does for those rules with the values that the names stand for, provided different names stand for different variants. Likewise `tokenizer! { .. }` generates a tokenizer that gives the same tokens as the builder does with the patterns and closures of the text in their order, panics exactly when the build returns an error or the function has arguments, and is a compile error exactly when the text is not in the notation.", "quantifier": "all token trees as macro input, all expressions and patterns in them, hash seeds, inputs", "why_tests_cant": "composition of reading, table construction, code generation and execution for every macro input", "anchors": ["parser_generator/src/lib.rs: parser, ParserGeneratorInput", "tokenizer_generator/src/lib.rs: tokenizer, TokenizerGeneratorInput"]}
{"id": "C95", "title": "When the stack of parse stays small", "statement": "If no nonterminal that can come up from the start symbol comes up inside itself with something in front of it (so: left recursion but no right recursion, no brackets around the nonterminal itself), then at every moment of every run of `parse`, on every input, with or without warnings, error rules and recoveries, the number of values and tokens that `parse` keeps on its stack is at most the length of the longest right-hand side times the number of nonterminals (or one). Otherwise, for a grammar without warnings and error rules, with productive nonterminals, a start symbol that does not derive itself and reducers that do not fail, the stack grows with the input: for some c and every n there is a sentence of at most c(n+1) tokens on which `parse` keeps n entries. Without empty right-hand sides and error rules there are never more entries than tokens taken so far.", "quantifier": "all grammars, inputs, moments of a run, hash seeds, histories of recoveries", "why_tests_cant": "a bound over all inputs, and growth over inputs of every length", "anchors": ["parser/src/iter.rs: Parse::parse", "parser/src/parser.rs: LR1Parser::new"]}
{"id": "C96", "title": "What the error of parse shows", "statement": "Whenever `parse` returns an error: either a reducer call failed, it was the last call and the only one that failed, the error is displayed exactly like the reducer's error (same options such as width and alternate form, into any sink, also when writing fails) and that error is its `source`; or no reducer call failed, the error is displayed as `recovery rule is not found` whatever the options, and it has no source. With parsers run inside reducers of other parsers, any number deep, the innermost error is displayed by the outermost one as it is, and a report that follows the sources shows the same message once more for every parser around it.", "quantifier": "all grammars, inputs, error types and their Display and Error implementations, format options, sinks, depths of nesting", "why_tests_cant": "ranges over all error types, sinks and depths", "anchors": ["parser/src/iter.rs: ParseError, Display for ParseError, Error for ParseError, Parse::parse"]}
{"id": "C97", "title": "How expressions without levels of precedence are read", "statement": "For a grammar of expressions in one nonterminal E, made of any number of constructs such as atoms, infix, prefix and postfix operators, brackets, `E [ E ]`, `E ? E : E` (a construct may begin with an operand, has a first token and further tokens with an operand before each, and may end with an operand), where the first token tells the construct both where an operand is expected and behind an operand (the same token may be both) and no further token is an operator: although `LR1Parser::new` reports conflicts, `parse` returns v exactly when v is the value of the text read as follows, whatever the order of the rules: all operators have the same strength; what stands to the left of an operator is a closed construct with its postfixes; what stands to the right of an infix or prefix operator extends as far as possible. There is exactly one such reading of each text of the language, and everything else ends in NotFound.", "quantifier": "all sets of constructs with these conditions, reducers, environments (hash orders), token sequences", "why_tests_cant": "ranges over all operator sets and all inputs", "anchors": ["parser/src/parser.rs: LR1Parser::new", "parser/src/iter.rs: Parse::parse"]}
{"id": "C98", "title": "Lists written with recursive rules collect their elements in order", "statement": "In any grammar (with any warnings, with or without error rules, with any other rules around), when the rules for L are `L ::= b | L m` (or `L ::= b | m L`), every value that a reducer gets for L, in successful and in failing runs, is computed by the reducer of the first rule from a piece of the input for b, and then by the reducer of the second rule from pieces for m applied one after the other from left to right (from right to left), the pieces standing one behind the other in the input. In particular with `L ::= (nothing) | L X` and a reducer that pushes, or `L ::= (nothing) | X L` and one that inserts at the front, the reducers get exactly the values of the X in the order of the text, none twice and none left out. More generally each argument of each reducer call is the value of a derivation over tokens of the input in their order, which are consecutive when there are no error rules.", "quantifier": "all grammars, reducers, environments (hash orders), token sequences, every reducer call", "why_tests_cant": "ranges over all grammars around the list and all inputs", "anchors": ["parser/src/iter.rs: Parse::parse", "parser/src/parser.rs: LR1Parser::new"]}
{"id": "C99", "title": "Error recovery inside nested blocks", "statement": "Let R be a statement list with blocks, `R ::= X ; R | error ; R | (nothing) | { R } R`, over any rules for X without empty right-hand sides, error symbols, R, or one of the three tokens, and let the grammar have no warnings. For every input whose blocks are closed and where the end token follows everything that is not a block: each right statement gives its value, each wrong statement is reported by itself, in the block where it stands, with the tokens given by the specification of C76, and every block gives what its inside gives when it is parsed by itself, whatever is wrong inside it, before it and after it; when the reducers do not fail there is exactly one such value and it is returned. When the end token is missing before a closing token, or a wrong statement contains a block, this fails: the tokens of blocks are then reported like any other, and an input with closed blocks may be rejected.", "quantifier": "all such grammars, reducers, environments (hash orders), inputs, depths of nesting, wrong statements", "why_tests_cant": "ranges over all grammars for the statements, all nestings of blocks and all wrong statements", "anchors": ["parser/src/iter.rs: Parse::parse", "parser/src/parser.rs: LR1Parser::new"]}
{"id": "C100", "title": "Error recovery inside brackets", "statement": "Let a grammar have the rules `Y ::= ( X ) | ( error )` and any other rules that have no empty right-hand side, no error symbol and not these brackets (X and Y may be used anywhere in them), and let LR1Parser::new make a parser for it without warnings, with every nonterminal productive and a start symbol that does not derive itself. If the input is right except that between some innermost brackets anything without brackets may stand that is not an X, then parse does not answer NotFound: it returns the value that the rules give when every wrong group has the value of the reducer of `( error )`, called with the opening token, the tokens of the wrong content (nothing before it, nothing after it but the closing token when the content is empty or one token that may begin an X) and the closing token. Only the error of a reducer can replace it; with reducers that succeed it is returned, and it is the only such value. Brackets inside a wrong content are not covered: there an input whose brackets match may be rejected, and one whose brackets do not match accepted.", "quantifier": "all such grammars, start symbols, reducers, environments (hash orders), inputs, numbers, depths and contents of wrong groups", "why_tests_cant": "ranges over all surrounding grammars, all places where groups may stand and all wrong contents", "anchors": ["parser/src/iter.rs: Parse::parse", "parser/src/parser.rs: LR1Parser::new"]}
{"id": "C101", "title": "Separated lists recover from each wrong item by itself", "statement": "Take the rules of an item X with no empty right-hand side, no error symbol and no separator, and add R ::= X sep R | error sep R | X with start symbol R. If the parser is built without warnings and every symbol derives some word, then parsing treats the input piece by piece, cut at the separators: a piece that is an item contributes the value of its reducers, whatever the pieces around it are; a piece before a separator that is not an item contributes one call of the error rule, with the tokens of exactly that piece (an empty piece is reported as its separator; a piece of one token that could begin an item is reported together with its separator). When the reducers do not fail, every input whose last piece is an item is parsed to exactly that value, whatever the pieces before it are, and every other input, the empty one included, ends in NotFound. Adding R ::= error does not extend this to the last piece: a last item that lacks its end is still rejected, after a trailing separator the first token of the whole input is reported, and the empty input makes parse panic. The construction never fails for such a list: if the parser for X alone is built without warnings, every symbol derives some word and X cannot be rewritten to itself, then the parser for the list is built without warnings too. With empty right-hand sides among the rules of the items, the reported tokens may lack the first one.", "quantifier": "all item grammars of that form, separators, reducers, environments (hash orders), token sequences with any number of wrong items anywhere", "why_tests_cant": "ranges over all item grammars and all token sequences with wrong items", "anchors": ["parser/src/iter.rs: Parse::parse", "parser/src/parser.rs: LR1Parser::new"]}
{"id": "C102", "title": "Separated lists written with left recursion recover from every wrong item", "statement": "Take the rules of an item X with no empty right-hand side, no error symbol and no separator, and add R ::= X | error | R sep X | R sep error with start symbol R. If the parser is built without warnings and every symbol derives some word, then parsing treats the input piece by piece, cut at the separators, and combines the pieces from the first one on: a piece that is an item contributes the value of its reducers, whatever the pieces around it are; a piece before a separator that is not an item contributes one call of an error rule, with the tokens of exactly that piece (an empty piece is reported as its separator; a piece of one token that could begin an item is reported together with its separator); a last piece with which no item begins contributes one call of an error rule with exactly its tokens; an empty last piece, after a trailing separator, contributes one with the first token of the whole input. When the reducers do not fail, an input that is not empty is rejected with NotFound exactly when it stops within an item, that is, its last piece is not empty, begins an item and is none; every other one is parsed to exactly that value. The empty input makes parse panic. The construction never fails for such a list: if the parser for X alone is built without warnings, every symbol derives some word and X cannot be rewritten to itself, then the parser for the list is built without warnings too. With empty right-hand sides among the rules of the items, the reported tokens may lack the first one.", "quantifier": "all item grammars of that form, separators, reducers, environments (hash orders), token sequences with any number of wrong items anywhere", "why_tests_cant": "ranges over all item grammars and all token sequences with wrong items", "anchors": ["parser/src/iter.rs: Parse::parse", "parser/src/parser.rs: LR1Parser::new"]}
{"id": "C103", "title": "Three ways to write a list of items agree, error recovery included", "statement": "The lists of C76 (R ::= X sep R | error sep R | nothing), C101 (R ::= X sep R | error sep R | X) and C102 (R ::= X | error | R sep X | R sep error) over the same item rules, each with reducers that collect into a list (insert at the front, or push at the end), are interchangeable on inputs that end with an item: whenever the three parsers return values (the first one given a separator more), the values stand for the same list, which has for each piece of the input between separators one entry, the value of the item or the reported tokens, in the order of the text; there is only one such list for an input. When the reducers do not fail, all three return values for every input whose last piece is an item, whatever the pieces before it are. On inputs whose last piece is no item they differ: the second rejects all of them, and for an empty last piece the first reports the separator and the third the first token of the input.", "quantifier": "all item grammars of that form, separators, collecting reducers, environments (hash orders, one for each parser), token sequences with any number of wrong items", "why_tests_cant": "ranges over all item grammars, three parsers each, and all token sequences with wrong items", "anchors": ["parser/src/iter.rs: Parse::parse", "parser/src/parser.rs: LR1Parser::new"]}
{"id": "C104", "title": "An edit of some items of a list changes nothing about the others", "statement": "Take one of the lists with error recovery of C76, C101 and C102, with reducers that collect into a list. Replace, anywhere in the input, any number of pieces with their separators (right or wrong ones, also none) by any others. If the parser returns a value before and after, the two values stand for lists that have the same entries before and after the edited place; in between there is for each piece one entry, which depends on this piece and its separator only: the value of the item or the reported tokens. When the reducers do not fail, the parser returns a value after the edit if it did before. For the list with left recursion this needs a last piece that is not empty: after a trailing separator the token reported for the missing item is the first one of the whole input, so that an edit at the beginning changes the last entry.", "quantifier": "all item grammars of that form, the three forms of lists, collecting reducers, environments (hash orders), inputs with wrong items, edits of whole pieces", "why_tests_cant": "ranges over all item grammars, inputs and edits", "anchors": ["parser/src/iter.rs: Parse::parse", "parser/src/parser.rs: LR1Parser::new"]}
{"id": "C105", "title": "From text to value, error recovery included", "statement": "text.tokenize(tokenizer).parse(parser), with both stages lazy, for patterns that do not accept the empty string and any grammar, with error rules and warnings or without: it has the outcome (value, not found, error of a reducer) that parse has for the tokens given by maximal munch, and returns if and only if that does. In particular, for the lists of C76, C101 and C102 and reducers that do not fail, a text with wrong statements gives the value of its pieces, each right piece with its own value and each wrong one reported by itself, and is rejected exactly when its tokens end in the middle of the list as described there.", "quantifier": "all pattern lists, all grammars, item grammars, all finite inputs from any iterator, all hash orders", "why_tests_cant": "ranges over all patterns, grammars, texts and iterators", "anchors": ["tokenizer/src/tokenizer/iter.rs: TokenizeIterator::next", "parser/src/iter.rs: Parse::parse", "parser/src/parser.rs: LR1Parser::new"]}
{"id": "C106", "title": "Recovering lists are parsed in linear time", "statement": "For lists R ::= X ; R | error ; R | (nothing) and R ::= X , R | error , R | X, whatever the rules of the items X are (without error symbols, separators and empty right-hand sides): parse detects at most 2n+2 syntax errors in an input of n tokens and ends within C*(n+1) turns, whether the items are right or wrong, where C depends only on the rules (not on the input, the reducers, the token and value types or the hash order). For lists written with left recursion, R ::= X | error | R , X | R , error, it detects at most 3n+3 syntax errors and the same bound on the turns holds. More generally every grammar whose error symbol stands only at the beginning of a list R, in which R stands only behind a separator and at the end of an R, and separators stand only directly within an R, is steady in the sense of C73.", "quantifier": "all item grammars, reducers, hash orders, inputs", "why_tests_cant": "a bound for all grammars of this shape and all inputs of all lengths", "anchors": ["parser/src/iter.rs: Parse::parse (recovery branch, symbols put back)", "parser/src/parser.rs: LR1Parser::new (error_rules)"]}
{"id": "C107", "title": "Recovering lists in a text are read in linear time", "statement": "text.tokenize(tokenizer).parse(parser) for one of the recovering lists of C106, with patterns that do not match the empty string: the tokenizer gives at most as many tokens as the text has characters, no scan for a token takes more than n+1 steps of the text iterator for a text of n characters, and parse ends within C*(n+1) turns, where C depends only on the grammar and not on the patterns, the tokenizer, the text or the errors in it.", "quantifier": "all item grammars, reducers, pattern lists, hash orders, iterators over texts, texts", "why_tests_cant": "a bound for all grammars of this shape, all tokenizers and all texts of all lengths", "anchors": ["tokenizer/src/tokenizer/iter.rs: TokenizeIterator::next", "parser/src/iter.rs: Parse::parse"]}
