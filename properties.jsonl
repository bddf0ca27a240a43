{"id": "C01", "title": "An accepted input really is a sentence of the grammar, and the result is its value", "statement": "If Parser::new(extra), parse(t1) .. parse(tn), end_of_input() all return Ok and no token was dropped as an error on the way, then the grammar written in pomelo! has a derivation tree from the start symbol whose leaves are t1..tn in order (a leaf may match its terminal directly, as a member of a compound/token class, through %fallback, or through %wildcard), the returned value is the one obtained by running the rule blocks bottom-up left-to-right exactly once per tree node, and the returned extra value is the one those blocks leave behind. Needs sound tables; an accepted grammar with overlapping rows accepts a non-sentence. (Sound tables: the packed rows do not overlap, see C08; no token class lists a class; no token is its own fallback. The macro checks none of these.)", "quantifier": "every grammar the macro accepts with sound tables, every token sequence, every choice of rule blocks and extra argument", "why_tests_cant": "infinitely many grammars and inputs; a test shows only that one input gives one expected value, never that no non-sentence is accepted", "anchors": ["pomelo-impl/src/parser/mod.rs::Pomelo::build", "pomelo-impl/src/parser/mod.rs::Pomelo::generate_source", "pomelo-impl/src/parser/mod.rs::yy_parse_token_2", "pomelo-impl/src/parser/mod.rs::yy_reduce", "pomelo-impl/src/parser/mod.rs::end_of_input_priv"]}
{"id": "C02", "title": "Every sentence of the grammar is accepted with the value of its tree", "statement": "For a grammar accepted by the macro, with sound tables and consistent types (C32), that declares no precedence and no wildcard: if a token sequence is the yield of a derivation tree from the start symbol and the rule blocks do not return Err while evaluating that tree, then feeding the tokens and calling end_of_input() returns Ok with that tree's value and final extra, without ever calling the %syntax_error, %parse_fail or %stack_overflow code - unless the stack limit is met, which ends in %stack_overflow. (Sound tables: the packed rows do not overlap, see C08; no token class lists a class; no token is its own fallback. The macro checks none of these.)", "quantifier": "every accepted precedence-free wildcard-free grammar, every derivation tree", "why_tests_cant": "needs all trees of all grammars: LALR(1) lookahead sets, default reductions and table packing must be right for every state that any sentence reaches", "anchors": ["pomelo-impl/src/parser/mod.rs::Pomelo::find_states", "pomelo-impl/src/parser/mod.rs::Pomelo::find_follow_sets", "pomelo-impl/src/parser/mod.rs::Pomelo::find_actions", "pomelo-impl/src/parser/mod.rs::Pomelo::compress_tables", "pomelo-impl/src/parser/mod.rs::ActTab::insert_action_set"]}
{"id": "C03", "title": "A grammar accepted without precedence declarations is unambiguous", "statement": "If the macro accepts a grammar that has no %left/%right/%nonassoc, then no token sequence has two different derivation trees from the start symbol, and its value is unique: the parse conflicts check leaves no silently chosen reading.", "quantifier": "every accepted precedence-free grammar, every pair of derivation trees with equal yield", "why_tests_cant": "ambiguity is undecidable to test; only a proof covers all sentences", "anchors": ["pomelo-impl/src/parser/mod.rs::Pomelo::find_actions", "pomelo-impl/src/parser/mod.rs::Pomelo::resolve_conflict", "pomelo-impl/src/parser/mod.rs::Pomelo::build"]}
{"id": "C04", "title": "The parser never consumes a token that cannot continue a sentence", "statement": "If every symbol used in a rule can derive some token string (and the tables are sound), then whenever parse(t1)..parse(tk) have returned Ok with no token dropped, t1..tk is a prefix of some sentence of the grammar: an error is reported at the first token that makes the input hopeless. (Sound tables: the packed rows do not overlap, see C08; no token class lists a class; no token is its own fallback. The macro checks none of these.)", "quantifier": "every accepted grammar whose non-terminals are productive, every token sequence", "why_tests_cant": "universally quantified over inputs, and the witness continuation has to be constructed for each", "anchors": ["pomelo-impl/src/parser/mod.rs::yy_parse_token_2", "pomelo-impl/src/parser/mod.rs::yy_find_shift_action_2", "pomelo-impl/src/parser/mod.rs::Pomelo::build_shifts"]}
{"id": "C05", "title": "No false syntax error on a viable prefix", "statement": "For an accepted precedence-free, wildcard-free grammar with sound tables and consistent types, while the tokens fed so far form a prefix of a sentence (whose evaluation does not fail), parse() returns Ok and no handler is called, unless the stack limit is met. (Sound tables: the packed rows do not overlap, see C08; no token class lists a class; no token is its own fallback. The macro checks none of these.)", "quantifier": "every accepted precedence-free wildcard-free grammar, every sentence and every prefix of it", "why_tests_cant": "quantifies over every prefix of every sentence", "anchors": ["pomelo-impl/src/parser/mod.rs::yy_parse_token_2", "pomelo-impl/src/parser/mod.rs::Pomelo::find_follow_sets", "pomelo-impl/src/parser/mod.rs::Pomelo::compress_tables"]}
{"id": "C06", "title": "parse() always returns", "statement": "Each call of parse() or end_of_input() on a parser generated from an accepted grammar finishes after finitely many reductions, whatever the token and whatever was fed before, if (a) no non-terminal can turn into itself by rules that begin with a symbol and whose rest may be empty, which is always so without %left/%right/%nonassoc, and (b) the stack has a limit, as it has by default, or the grammar has no hidden left recursion, or it has no precedences and every symbol derives something. Neither (a) nor (b) can be left out: there are accepted grammars whose parser then runs for ever.", "quantifier": "every accepted grammar meeting (a) and (b), every token sequence (also erroneous ones), every user code", "why_tests_cant": "non-termination can not be observed by a finite test; it depends on every chain of default reductions", "anchors": ["pomelo-impl/src/parser/mod.rs::yy_parse_token_2", "pomelo-impl/src/parser/mod.rs::yy_reduce", "pomelo-impl/src/parser/mod.rs::Pomelo::compress_tables"]}
{"id": "C07", "title": "The generated parser never panics on its own", "statement": "On a parser that has not failed, parse() and end_of_input() never hit an assertion, unwrap, array-bounds or unreachable!() panic of the generated code: they return Ok or Err. This needs sound tables and types that agree between a token and its fallback, a class and its members and so on (C32); an accepted grammar without one of these can make the generated parser panic. (Sound tables: the packed rows do not overlap, see C08; no token class lists a class; no token is its own fallback. The macro checks none of these.)", "quantifier": "every accepted grammar, every token sequence including wrong ones, every user block", "why_tests_cant": "the assertions depend on table contents for every (state, symbol) pair that any input can reach", "anchors": ["pomelo-impl/src/parser/mod.rs::yy_parse_token_2", "pomelo-impl/src/parser/mod.rs::yy_find_reduce_action", "pomelo-impl/src/parser/mod.rs::yy_find_shift_action_2", "pomelo-impl/src/parser/mod.rs::yy_reduce", "pomelo-impl/src/parser/mod.rs::Pomelo::translate_code"]}
{"id": "C08", "title": "The packed action table is a faithful encoding", "statement": "Looking up (state, symbol) through the packed arrays YY_ACTION/YY_LOOKAHEAD with the state's offset returns exactly the action the generator recorded for that state and symbol, and a miss for every symbol the state has no action for, if and only if no row was put on top of another. The packing loop does not ensure that: a row with a single action can be placed over the free slots of another so that a state answers for a symbol it has no action for. Rows are apart when every state with a single action has it on a symbol with a number above the number of such rows.", "quantifier": "every accepted grammar without classes inside classes, every state, every lookahead", "why_tests_cant": "collisions depend on the relative offsets of all previously placed sets", "anchors": ["pomelo-impl/src/parser/mod.rs::ActTab::insert_action_set", "pomelo-impl/src/parser/mod.rs::ActionSet::add_action", "pomelo-impl/src/parser/mod.rs::Pomelo::generate_source", "pomelo-impl/src/parser/mod.rs::yy_find_shift_action_2"]}
{"id": "C09", "title": "Emitted table entries fit their chosen integer types", "statement": "Every literal emitted in YY_LOOKAHEAD, YY_RULE_INFO and YY_DEFAULT is representable in the element type the generator picked for that array. For YY_SHIFT_OFST and YY_REDUCE_OFST the type is picked by the largest offset only, so an entry fits exactly when it is not below the type's negative end; it does for up to 129 symbols, and there is an accepted grammar with an offset that does not fit.", "quantifier": "every accepted grammar of fewer than 2^31 symbols and table entries, every array entry", "why_tests_cant": "only very large grammars get near the bounds", "anchors": ["pomelo-impl/src/parser/mod.rs::minimum_signed_type", "pomelo-impl/src/parser/mod.rs::minimum_unsigned_type", "pomelo-impl/src/parser/mod.rs::Pomelo::generate_source"]}
{"id": "C10", "title": "Shift-reduce conflicts are resolved as documented", "statement": "For a token that can be shifted and a rule that can be reduced on it in an accepted grammar: both have a precedence (otherwise the macro reports a conflict and fails); the higher precedence wins silently; on a tie %left reduces, %right shifts, and %nonassoc makes the token an error (if it has no fallback and there is no wildcard, see C12).", "quantifier": "every token/rule pair, every precedence level and associativity, every state", "why_tests_cant": "the number of (token, rule, precedence) combinations is unbounded and resolution is order dependent when more than two actions collide", "anchors": ["pomelo-impl/src/parser/mod.rs::precedence_cmp", "pomelo-impl/src/parser/mod.rs::Pomelo::resolve_conflict", "pomelo-impl/src/parser/mod.rs::Pomelo::find_actions"]}
{"id": "C11", "title": "Reduce-reduce conflicts are resolved as documented", "statement": "If in a state of an accepted grammar two rules can be reduced on the same token, both have a precedence (otherwise the macro reports a conflict and fails) and the higher one wins silently. Equal precedences are a conflict only for %nonassoc: for %left and %right the macro silently keeps the rule written later, although the documentation says the first is kept and a conflict is reported.", "quantifier": "every pair of rules, every precedence assignment", "why_tests_cant": "needs all precedence/associativity combinations of both rules", "anchors": ["pomelo-impl/src/parser/mod.rs::precedence_cmp", "pomelo-impl/src/parser/mod.rs::Pomelo::resolve_conflict"]}
{"id": "C12", "title": "%nonassoc operators do not chain", "statement": "If in some state the shift of a token ties with the reduction of a rule on the same %nonassoc precedence, and no rule with a higher precedence can be reduced, the generated parser treats that token in that state as a syntax error, provided the grammar has no wildcard and the token no fallback. With either of them the error can be lost: there are accepted grammars in which a %nonassoc operator then chains.", "quantifier": "every accepted grammar, every state, every tied token", "why_tests_cant": "depends on the order in which the surviving actions of a state are packed, for every state of every grammar", "anchors": ["pomelo-impl/src/parser/mod.rs::Pomelo::resolve_conflict", "pomelo-impl/src/parser/mod.rs::Pomelo::compress_tables", "pomelo-impl/src/parser/mod.rs::ActionDetail::cmp", "pomelo-impl/src/parser/mod.rs::ActTab::insert_action_set"]}
{"id": "C13", "title": "Nullable and FIRST sets are exact", "statement": "The generator marks a non-terminal as able to derive the empty string exactly when the grammar can, and its first set is exactly the set of terminals that can begin what it derives.", "quantifier": "every grammar", "why_tests_cant": "fixpoint over arbitrary grammars", "anchors": ["pomelo-impl/src/parser/mod.rs::Pomelo::find_first_sets"]}
{"id": "C14", "title": "LALR(1) lookaheads are exact", "statement": "A rule is offered for reduction in a state on a terminal exactly when some viable prefix leading to that state has that completed rule as a valid LR(1) item with that terminal as lookahead.", "quantifier": "every grammar, every state, every completed rule, every terminal", "why_tests_cant": "requires all viable prefixes (infinitely many)", "anchors": ["pomelo-impl/src/parser/mod.rs::Pomelo::configlist_closure", "pomelo-impl/src/parser/mod.rs::Pomelo::find_links", "pomelo-impl/src/parser/mod.rs::Pomelo::find_follow_sets", "pomelo-impl/src/parser/mod.rs::Pomelo::find_actions"]}
{"id": "C15", "title": "No conflict is left silently undecided", "statement": "If the macro accepts a grammar, then in the action lists it builds each state has at most one live action per lookahead (the only pair allowed being the error marker of a %nonassoc tie and the reduction it overrides).", "quantifier": "every accepted grammar, every state, every lookahead", "why_tests_cant": "pairwise resolution of an arbitrary number of colliding actions", "anchors": ["pomelo-impl/src/parser/mod.rs::Pomelo::find_actions", "pomelo-impl/src/parser/mod.rs::Pomelo::resolve_conflict", "pomelo-impl/src/parser/mod.rs::Pomelo::build"]}
{"id": "C16", "title": "%fallback can never loop", "statement": "If the %fallback directives of a grammar are accepted and no token is declared its own fallback, following fallbacks from any token ends after at most as many steps as there are fallback targets. The macro does accept a token that is its own fallback.", "quantifier": "every sequence of declarations", "why_tests_cant": "every order and overlap of directives", "anchors": ["pomelo-impl/src/parser/mod.rs::Pomelo::parse_one_decl", "pomelo-impl/src/parser/mod.rs::yy_find_shift_action_2"]}
{"id": "C17", "title": "A fallback does not change a token that is valid in the first place", "statement": "If a state can act on a token itself, the generated parser performs for it one of the actions that the precedences leave, whatever %fallback declarations and default-reduction compression say, except that a token tied by %nonassoc is an error (if it has no fallback). Only a token on which the state cannot act is retried as its fallback.", "quantifier": "every accepted wildcard-free grammar whose table rows do not collide, every state, every token, every fallback chain", "why_tests_cant": "interaction of default-reduction compression with arbitrary fallback chains", "anchors": ["pomelo-impl/src/parser/mod.rs::Pomelo::compress_tables", "pomelo-impl/src/parser/mod.rs::yy_find_shift_action_2"]}
{"id": "C18", "title": "%wildcard matches only what cannot be parsed otherwise", "statement": "If a state has its own decision for a token, the wildcard of that state is not used for it, if the decision is a shift, or if the state shifts the wildcard. If the token's decision is a reduction and the state also reduces on the wildcard, the wildcard's reduction can be taken instead (refuted by an accepted grammar).", "quantifier": "every accepted grammar with a %wildcard, every state, every token", "why_tests_cant": "interaction of compression with wildcard actions in every state", "anchors": ["pomelo-impl/src/parser/mod.rs::Pomelo::compress_tables", "pomelo-impl/src/parser/mod.rs::yy_find_shift_action_2"]}
{"id": "C19", "title": "The stack limit is respected and changes nothing else", "statement": "With %stack_size n > 0 the parser stack never holds more than n entries; the %stack_overflow code runs exactly when one more push would exceed n, its value is returned as Err; and as long as it has not run the parser behaves exactly as with an unlimited stack. With %stack_size 0 the overflow code never runs.", "quantifier": "every grammar, limit, token sequence and user code", "why_tests_cant": "all inputs and depths", "anchors": ["pomelo-impl/src/parser/mod.rs::yy_shift", "pomelo-impl/src/parser/mod.rs::new_priv", "pomelo-impl/src/parser/mod.rs::yy_reduce"]}
{"id": "C20", "title": "%syntax_error is silent until three tokens have been shifted", "statement": "In a grammar that does not mention `error`, a wrong token is reported to %syntax_error if and only if it is the first wrong one or at least three tokens have been shifted since the last wrong one; so after %syntax_error has run it is not run again before three more tokens have been shifted. In a grammar with `error` this does not hold: %syntax_error can run for each of several consecutive tokens although the documentation says otherwise.", "quantifier": "every accepted grammar, every token sequence, every user code", "why_tests_cant": "all interleavings of good and bad tokens", "anchors": ["pomelo-impl/src/parser/mod.rs::yy_parse_token_2", "pomelo-impl/src/parser/mod.rs::yy_syntax_error"]}
{"id": "C21", "title": "Error recovery resumes at the nearest state accepting `error`", "statement": "For a grammar using the error symbol, on a syntax error at a token the parser pops exactly the entries above the topmost stack entry whose state can shift `error` (or whose symbol is `error`), then has `error` on top, and drops the token; if there is no such entry the %parse_fail code is run and parse() returns its value as Err. For a grammar not using it the token is dropped and nothing else changes but the extra value in %syntax_error's hands; %parse_fail is not run, although the documentation says so.", "quantifier": "every accepted grammar, every reachable parser state, every offending token", "why_tests_cant": "all stacks", "anchors": ["pomelo-impl/src/parser/mod.rs::yy_parse_token_2", "pomelo-impl/src/parser/mod.rs::yy_find_reduce_action", "pomelo-impl/src/parser/mod.rs::yy_parse_failed"]}
{"id": "C22", "title": "A failed parser stays failed", "statement": "Once parse() has returned Err, every later parse() or end_of_input() on that parser panics with 'Cannot call parse after failure' and does not run any user code; before that, parse() never hits that panic.", "quantifier": "every grammar, every call sequence; that the panic does not come earlier for grammars whose table rows do not collide and whose types agree", "why_tests_cant": "all histories", "anchors": ["pomelo-impl/src/parser/mod.rs::yy_parse_token", "pomelo-impl/src/parser/mod.rs::YYStatus"]}
{"id": "C23", "title": "end_of_input never silently discards input", "statement": "end_of_input() returns Ok only by reducing a rule of the start symbol with the whole stack consumed; otherwise it returns the error of %parse_fail (or of a failing rule block or stack overflow); it never calls %syntax_error and parse() alone never accepts.", "quantifier": "every accepted grammar whose table rows do not collide and whose types agree, every sequence of tokens before", "why_tests_cant": "all reachable states", "anchors": ["pomelo-impl/src/parser/mod.rs::end_of_input_priv", "pomelo-impl/src/parser/mod.rs::yy_parse_token_2", "pomelo-impl/src/parser/mod.rs::Pomelo::compress_tables"]}
{"id": "C24", "title": "The expected-token list misses nothing", "statement": "Whenever %syntax_error runs, the `expected` list it receives is, for an accepted precedence-free, wildcard-free grammar, exactly the tokens that the state in which the error was found can act on, directly or through a fallback; it contains no duplicates and never end of input, and an entry carries a ready-made token exactly when that token has no data type. A token that could have been shifted in the state parse() was called in is in the list of that state. But the state in which the error is found may have been reached by default reductions, and then a token that was possible before can be missing (refuted by an accepted grammar).", "quantifier": "every accepted grammar, every reachable state, every token", "why_tests_cant": "all states and tokens", "anchors": ["pomelo-impl/src/parser/mod.rs::ExpectedTokens", "pomelo-impl/src/parser/mod.rs::token_build", "pomelo-impl/src/parser/mod.rs::yy_find_shift_action_2"]}
{"id": "C25", "title": "Error handlers see the exact offending token", "statement": "The token handed to %syntax_error is the token passed to parse(), with its data, and so is the one handed to %stack_overflow when that token did not fit; if a non-terminal did not fit, %stack_overflow gets None. Converting a token to its internal code and back is the identity.", "quantifier": "every grammar, every token and payload", "why_tests_cant": "all payloads and variants", "anchors": ["pomelo-impl/src/parser/mod.rs::token_value", "pomelo-impl/src/parser/mod.rs::token_build", "pomelo-impl/src/parser/mod.rs::yy_syntax_error_2", "pomelo-impl/src/parser/mod.rs::yy_shift"]}
{"id": "C26", "title": "`X?` means X or nothing", "statement": "A symbol written X? on a right-hand side derives exactly the empty string (value None) and what X derives (value Some of X's value), and adds nothing else to the grammar. The question mark after a compound (A|B)? is silently ignored.", "quantifier": "every accepted declaration list, every optional symbol", "why_tests_cant": "all grammars; interacts with symbol sharing and compound symbols", "anchors": ["pomelo-impl/src/parser/mod.rs::Pomelo::parse_one_decl", "pomelo-impl/src/parser/mod.rs::Pomelo::prepare"]}
{"id": "C27", "title": "Static checks hold for whatever is accepted", "statement": "If the macro accepts a grammar then the start symbol occurs on no right-hand side, every non-terminal needed in a reachable item has rules (or is error), every rule is reduced in some state, no declared precedence/type/fallback was given twice, and no conflict was counted.", "quantifier": "every declaration list", "why_tests_cant": "all declaration lists", "anchors": ["pomelo-impl/src/parser/mod.rs::Pomelo::find_states", "pomelo-impl/src/parser/mod.rs::Pomelo::configlist_closure", "pomelo-impl/src/parser/mod.rs::Pomelo::find_actions", "pomelo-impl/src/parser/mod.rs::Pomelo::parse_one_decl"]}
{"id": "C28", "title": "Symbol numbering is a bijection with end-of-input 0", "statement": "Each symbol gets one number; terminals get 0..n-1 with end of input 0, then the non-terminals with the default marker last, then compounds; two different declared names never share a number and one name never gets two.", "quantifier": "every declaration list", "why_tests_cant": "all declaration lists", "anchors": ["pomelo-impl/src/parser/mod.rs::Pomelo::prepare", "pomelo-impl/src/parser/mod.rs::Pomelo::symbol_new"]}
{"id": "C29", "title": "A failing rule block aborts the parse with its own error", "statement": "If a rule block returns Err(e), the parse()/end_of_input() call returns exactly Err(e), no later block runs, the extra value is as that block left it, and the parser is failed.", "quantifier": "every grammar, every input, every failing block", "why_tests_cant": "all inputs and blocks", "anchors": ["pomelo-impl/src/parser/mod.rs::yy_reduce", "pomelo-impl/src/parser/mod.rs::yy_parse_token"]}
{"id": "C30", "title": "Macro expansion terminates", "statement": "For every declaration list in which no token is its own fallback the generator finishes (with generated tables or an error), whatever the grammar. With a token that is its own fallback it can loop for ever.", "quantifier": "every declaration list", "why_tests_cant": "non-termination cannot be tested; the state construction is recursive over an exponential space of item sets", "anchors": ["pomelo-impl/src/parser/mod.rs::Pomelo::get_state", "pomelo-impl/src/parser/mod.rs::Pomelo::build_shifts", "pomelo-impl/src/parser/mod.rs::Pomelo::find_first_sets", "pomelo-impl/src/parser/mod.rs::Pomelo::find_follow_sets", "pomelo-impl/src/parser/mod.rs::Pomelo::configlist_closure"]}
{"id": "C31", "title": "The iteration order of the optional-symbol hash map is not observable", "statement": "The generator iterates a HashMap of optional symbols in unspecified order. Whether the grammar is accepted does not depend on that order; and any two expansions with sound tables behave alike on every sequence of tokens: parse and end_of_input return the same value or error, leave the same extra value, and run the same blocks on the same values in the same order. Precedences, fallbacks and the wildcard are allowed. (Sound tables: the packed rows do not overlap, see C08; no token class lists a class; no token is its own fallback. The macro checks none of these.)", "quantifier": "every grammar, every two iteration orders, every user code, every sequence of tokens", "why_tests_cant": "the order changes from run to run and cannot be enumerated by a test", "anchors": ["pomelo-impl/src/parser/mod.rs::Pomelo::prepare"]}
{"id": "C32", "title": "Rule blocks receive values of the declared types", "statement": "When a rule is reduced, the value on the stack for each aliased right-hand-side symbol is of the variant the rule's pattern expects and the root value is of the declared type (the 'impossible pattern' and 'unexpected root type' branches are never taken), if fallbacks, classes and the wildcard agree in type with what they stand for; the macro does not check this for all of them, and without it those branches can be reached.", "quantifier": "every accepted grammar with consistent types and sound tables, every input", "why_tests_cant": "depends on every way a stack slot can be filled (direct, class, fallback, wildcard, error, goto)", "anchors": ["pomelo-impl/src/parser/mod.rs::Pomelo::translate_code", "pomelo-impl/src/parser/mod.rs::Pomelo::generate_source", "pomelo-impl/src/parser/mod.rs::token_value"]}
{"id": "C33", "title": "A token class is equivalent to listing its members", "statement": "Writing A|B|... in place of the name of a %token_class with these members on right-hand sides changes nothing: if the macro accepts both grammars, each of the two parsers accepts what the other accepts, with the same block calls, the same values and the same result, up to the stack limit.", "quantifier": "every two accepted grammars that differ in this way, without precedences, wildcard and fallbacks, whose table rows do not collide and whose types agree; every class without an own type, every input, all blocks", "why_tests_cant": "all grammars and inputs", "anchors": ["pomelo-impl/src/parser/mod.rs::Pomelo::build_shifts", "pomelo-impl/src/parser/mod.rs::Pomelo::parse_one_decl", "pomelo-impl/src/parser/mod.rs::Pomelo::resort_states"]}
{"id": "C34", "title": "A rule's precedence is that of its leftmost terminal with precedence, or the bracketed one", "statement": "Each rule gets the precedence of the [symbol] it names if any, else that of the leftmost right-hand-side terminal (or compound member) that has one, else none; later %left/%right/%nonassoc lines bind tighter than earlier ones.", "quantifier": "every declaration list, every rule", "why_tests_cant": "all declaration lists", "anchors": ["pomelo-impl/src/parser/mod.rs::Pomelo::find_rule_precedences", "pomelo-impl/src/parser/mod.rs::Pomelo::parse_one_decl"]}
{"id": "C35", "title": "Default reductions never change the outcome of a parse", "statement": "Replacing the most frequent reduction of a state by a default reduction, reordering the actions, renumbering the states and packing the tables leave unchanged which token sequences are accepted without a dropped token, with which block calls and values, up to the stack limit. This is for grammars without wildcard in which no %nonassoc token has a fallback.", "quantifier": "every accepted grammar without %wildcard and without %fallback on %nonassoc tokens whose table rows do not collide, every input, all blocks", "why_tests_cant": "all grammars and inputs", "anchors": ["pomelo-impl/src/parser/mod.rs::Pomelo::compress_tables", "pomelo-impl/src/parser/mod.rs::Pomelo::resort_states"]}
{"id": "C36", "title": "The macro itself never panics", "statement": "For every declaration list in which each %token_class has a first member other than the class itself, expanding pomelo! ends in generated code or in a compile error with a message: none of the generator's own unwrap(), assert!(), unreachable!(), indexing operations or RefCell borrows panics, with one exception: if in some state the same token can be shifted in two ways, one of which leads back to that state, the macro panics while it sorts the actions (it borrows the state that it holds) instead of reporting the conflict. Without classes and alternatives this cannot happen. (An empty %token_class C; or %token_class C C A; that is used also makes it panic.)", "quantifier": "every declaration list, every hash map order", "why_tests_cant": "all grammars: each unwrap rests on an invariant of the whole pipeline (e.g. some state has a token action and some state a goto)", "anchors": ["pomelo-impl/src/parser/mod.rs::Pomelo::build", "pomelo-impl/src/parser/mod.rs::Pomelo::generate_source", "pomelo-impl/src/parser/mod.rs::Pomelo::parse_one_decl", "pomelo-impl/src/parser/mod.rs::Pomelo::prepare", "pomelo-impl/src/parser/mod.rs::Pomelo::find_actions", "pomelo-impl/src/parser/mod.rs::ActionDetail::cmp", "pomelo-impl/src/parser/vecref.rs::VecRef::get"]}
{"id": "C37", "title": "The text of a grammar has one reading, and the macro finds it", "statement": "The tokens inside pomelo!{...} are accepted by the macro's own parser exactly when they are a sequence of declarations as documented (directive by directive, rules with A|B, ?, (alias), [prec], {block}), and then the declaration list the macro works with is the only one they spell. Pieces closed by a semicolon or a block can be put one after the other and are read independently. (A rule with neither needs a semicolon before another rule: `a ::= B c ::= D` is rejected although the semicolon is documented as optional.)", "quantifier": "every token sequence, any behaviour of syn's own type/attribute/item/block/pattern parsers that only looks at what it consumes", "why_tests_cant": "all texts; both directions (nothing else is accepted, nothing documented is refused) and uniqueness of the reading", "anchors": ["pomelo-impl/src/lib.rs::impl Parse for Decls", "pomelo-impl/src/lib.rs::impl Parse for Decl", "pomelo-impl/src/lib.rs::pomelo_impl", "pomelo-impl/src/decl.rs::Decl"]}
{"id": "C38", "title": "The macro rejects a grammar only for the fault it reports, and a grammar it accepts has none", "statement": "Whenever pomelo! reports one of its errors, the declarations have the fault the message names: a directive given twice, a name that is not a token where one is needed, a typed rule without block that has not exactly one typed element, a fallback or class whose members have other types, a symbol without rules, a rule that can never be reduced because every place for it is taken by a move it does not win against, or two moves in the same place that no precedence decides between (with the exact %nonassoc rule). Conversely a grammar that is expanded has none of these faults.", "quantifier": "every declaration list, every error, every hash map order", "why_tests_cant": "the compile-fail tests show one grammar per message; that no sound grammar is refused, and that no faulty one slips through, is about all grammars", "anchors": ["pomelo-impl/src/parser/mod.rs::parse_one_decl", "pomelo-impl/src/parser/mod.rs::new_from_decls", "pomelo-impl/src/parser/mod.rs::normalize_rules", "pomelo-impl/src/parser/mod.rs::find_actions", "pomelo-impl/src/parser/mod.rs::resolve_conflict", "pomelo-impl/src/parser/mod.rs::generate_source"]}
{"id": "C39", "title": "Operators bind as declared", "statement": "Whenever a grammar with operator rules (a ::= ... a, a ::= a op ...) accepts an input without a syntax error, the value returned is that of a derivation tree of the input in which every operator is nested as the %left/%right/%nonassoc lines say: wherever a rule `a ::= ... a` has, at the left edge of its last operand, an unparenthesised `a op ...`, then op is declared on a later line than that rule's precedence, or on the same %right line; and wherever a rule `a ::= ... a` is completed in front of a token op that could have continued its last operand, the rule's precedence comes from a later line than op's, or from the same %left line. In particular x - y - z is (x - y) - z under %left, x ^ y ^ z is x ^ (y ^ z) under %right, no two %nonassoc operators of one line are chained, and an operator of a later line binds tighter at any depth.", "quantifier": "every grammar accepted by the macro (without %wildcard and without %fallback on %nonassoc tokens), every token sequence, every value semantics", "why_tests_cant": "tests check a handful of expressions of one grammar; nesting is a property of whole trees of unbounded size, through default reductions, row packing and prefix/postfix operators mixed in any way", "anchors": ["pomelo-impl/src/parser/mod.rs::find_actions", "pomelo-impl/src/parser/mod.rs::resolve_conflict", "pomelo-impl/src/parser/mod.rs::find_rule_precedences", "pomelo-impl/src/parser/mod.rs::compress_tables"]}
{"id": "C40", "title": "The dangling else is attached as declared", "statement": "If a grammar has a rule and a longer one that continues it with a token (if e / if e else e), then in the derivation tree of every input accepted without a syntax error each such token belongs to the innermost open rule if its precedence is over the shorter rule's, and a shorter rule is completed in front of the token only if its precedence is over the token's.", "quantifier": "every grammar accepted by the macro (without %wildcard and without %fallback on %nonassoc tokens), every token sequence, every value semantics", "why_tests_cant": "which else belongs to which if is a property of trees of unbounded depth; one nested example cannot show it", "anchors": ["pomelo-impl/src/parser/mod.rs::find_actions", "pomelo-impl/src/parser/mod.rs::resolve_conflict"]}
{"id": "C41", "title": "Operator grammars lose no sentence", "statement": "In a grammar of operators (a start rule `s ::= a` and rules of `a` made of tokens and operands `a`: prefix, infix, postfix and mixfix operators, brackets and atoms, each rule known by its first token or by the token after its first operand), resolving the conflicts by precedence loses nothing but wrongly nested readings: if no infix or postfix operator is %nonassoc and no block returns an error, every sentence of the declared grammar is accepted (or the stack limit is hit) and the result is the value of the one derivation tree of the sentence in which operators are nested as declared. With %nonassoc operators, exactly the sentences that have such a tree are accepted, with its value.", "quantifier": "every such grammar accepted by the macro (without %wildcard and without %fallback on %nonassoc tokens), every token sequence, every value semantics", "why_tests_cant": "resolving a conflict removes an action from a table; that no sentence of unbounded length needed the removed action, and that each has exactly one properly nested tree, cannot be seen from finitely many expressions", "anchors": ["pomelo-impl/src/parser/mod.rs::find_actions", "pomelo-impl/src/parser/mod.rs::resolve_conflict", "pomelo-impl/src/parser/mod.rs::find_rule_precedences", "pomelo-impl/src/parser/mod.rs::compress_tables"]}
{"id": "C42", "title": "Rule blocks see the extra value the caller left between the calls", "statement": "A caller may change the extra value with extra_mut() between the calls of parse(). If the session is accepted without a syntax error, then its result and final extra value are those of a reading of the input by the declared rules in which the change made after handing over a token comes after every rule block for what was read before that token, and before every block of a rule that contains the token or anything after it. Conversely every such reading of the whole input is accepted with that value and extra value (or the stack limit is hit). A session in which the caller changes nothing is an ordinary parse.", "quantifier": "every grammar accepted by the macro, every token sequence, every sequence of changes between the calls, every value semantics; the converse for grammars without precedences and %wildcard", "why_tests_cant": "the moment at which a block runs depends on the lookahead and on default actions in the packed table; a test sees one interleaving, the claim is about all", "anchors": ["pomelo-impl/src/parser/mod.rs::generate_source (extra, extra_mut, into_extra)", "pomelo-impl/src/parser/mod.rs::yy_parse_token_2"]}
{"id": "C43", "title": "The Token enum carries the declared data", "statement": "The Token enum has one variant for each token the grammar mentions and no other. Its field has the declared %type, or else the %default_type, or there is no field; the %wildcard token has none. With %extra_token E a token of type T carries (E, T) and a token without type carries E, and for every variant Token::extra() and into_extra() give that E and extra_mut() replaces it and leaves the rest. Non-terminals keep their declared types.", "quantifier": "every grammar accepted by the macro in which no class lists a class, every token, every value", "why_tests_cant": "the arms of the accessors are generated per token from a comparison of types; a test has a handful of tokens and types, and a wrong arm for some type (say when E is itself a pair) is not in it", "anchors": ["pomelo-impl/src/parser/mod.rs::generate_source (yytoken, token_extra)", "pomelo-impl/src/parser/mod.rs::prepare", "src/lib.rs (%extra_token)"]}
{"id": "C44", "title": "An accepted input with wrong tokens still means something", "statement": "If end_of_input() returns Ok, the result and the final extra value come from a reading of all the tokens handed over. In a grammar that does not mention error, each wrong token is passed over: it takes part in nothing but the %syntax_error call made for it (if any), which sees and changes the extra value at its place in the order of the blocks. In a grammar that mentions error, an error symbol stands for some complete pieces already read, whose blocks have run once, and the wrong token; its value is what %syntax_error returned for that token; it may also stand for further pieces and wrong tokens after it, which are not reported and do not change its value. If no token was wrong this is the plain meaning of the input; if error is not mentioned and %syntax_error leaves the extra value alone, the result is the plain meaning of the tokens that were not dropped.", "quantifier": "every grammar the macro accepts whose table rows do not collide, all blocks and handlers, every sequence of tokens that is accepted, with any number of syntax errors anywhere in it", "why_tests_cant": "the errors can be anywhere, in any state, with any pieces on the stack; the repository's tests try a few lines of one grammar", "anchors": ["pomelo-impl/src/parser/mod.rs::generate_source (yy_parse_token_2)", "src/lib.rs (Error processing)"]}
{"id": "C45", "title": "Parsing takes linear time", "statement": "For each grammar for which calls return (C06: no name can turn into itself, which is always so without precedences; and the stack has a limit, or there is no hidden left recursion, or there are no precedences and every name can produce some tokens) there is one constant k such that parsing any n tokens with any blocks, handlers and extra value takes at most k(n+1) steps in all: shifts, reductions, entries popped and tokens dropped in error recovery, and calls of handlers. So the blocks and handlers run at most k(n+1) times, and the stack never has more than k(n+1) entries.", "quantifier": "every grammar the macro accepts whose table rows do not collide and that meets these conditions, all blocks and handlers, every sequence of tokens of any length, right or wrong", "why_tests_cant": "a bound for inputs of all lengths, with the same constant, cannot be observed on finitely many inputs; without it an input could make the parser reduce empty rules or retry recovery a number of times that grows faster than its length", "anchors": ["pomelo-impl/src/parser/mod.rs::generate_source (yy_parse_token_2, yy_reduce)", "src/lib.rs (%stack_size)"]}
{"id": "C46", "title": "The order of the declarations does not matter", "statement": "If the declarations of an accepted grammar are put in another order, the start symbol and the order of the precedence lines among themselves staying the same, the macro accepts the result too, and for every input that one of the two parsers accepts without dropping a token the other makes the same block calls in the same order and returns the same result and extra value (or runs into the stack limit). The promise of the documentation needs two exceptions, which are proved to be needed: no %stack_size line, %type line of one name or %token_class line of one name is repeated, and the rules that have a precedence keep their order among themselves.", "quantifier": "every grammar the macro accepts in which no class lists a class, every rearrangement of it, every input; the answers for grammars without %wildcard and without %fallback on %nonassoc tokens, whose table rows do not collide", "why_tests_cant": "symbols, generated names, rules and states get other numbers and the sorted action lists and the packed tables come out differently for each of the n! orders of each grammar", "anchors": ["src/lib.rs (Grammar Rules; Special Directives)", "pomelo-impl/src/parser/mod.rs::parse_one_decl", "pomelo-impl/src/parser/mod.rs::prepare"]}
{"id": "C47", "title": "The report of the states tells the truth", "statement": "If the grammar has conflicts the macro fails with a report of all states, and with %verbose it prints the same report for an accepted grammar; without either nothing is reported. In the report there is exactly one section for each situation the parser can be in, that is for each set of rules with a dot that the beginnings of inputs lead to. The section lists exactly these rules with the dot at its place. Each line about a token is a shift or a reduction that the grammar allows there with that next token, or an error caused by %nonassoc, and no such move is missing. A line is marked as a conflict exactly for the tokens where the precedences leave the choice open; where they do not, the lines without a mark are exactly the moves that the precedences prefer. The state numbers in the lines are the numbers of the sections that describe the situation after the shift. With %verbose the list of all symbols follows.", "quantifier": "every list of declarations for which a report is made, accepted or not, every order of the hash map, every state, rule, token and line of the report", "why_tests_cant": "the report of each grammar is a different text with one section per automaton state; that nothing is missing or wrong in it is a statement about all strings of symbols the parser can have on its stack", "anchors": ["pomelo-impl/src/parser/mod.rs::report_output", "pomelo-impl/src/parser/mod.rs::resolve_conflict", "pomelo-impl/src/parser/mod.rs::build", "src/lib.rs (%verbose)"]}
{"id": "C48", "title": "Extending a grammar keeps what it accepted", "statement": "If rules, %fallback lines, members of classes, and types and classes for new names are added to an accepted grammar anywhere, the start symbol staying the same, and the macro accepts the result too, then every input the old parser accepted is accepted by the new one, with the same block calls in the same order, the same result and the same extra value, or it runs into the stack limit. This needs a grammar without precedences and %wildcard, and an old grammar without %fallback: with precedences, or for a token that fell back before, a new rule can change what an old input means (refuted).", "quantifier": "every two grammars the macro accepts of which one extends the other, without %left/%right/%nonassoc and %wildcard, the old one without %fallback, whose table rows do not collide; every input, all blocks", "why_tests_cant": "a regression test checks chosen old inputs against one chosen extension; the claim is about all inputs and all extensions, and new rules change the states, the numbers and the packed tables of everything", "anchors": ["pomelo-impl/src/parser/mod.rs::parse_one_decl", "pomelo-impl/src/parser/mod.rs::find_states", "pomelo-impl/src/parser/mod.rs::find_actions", "src/lib.rs (Grammar Rules)"]}
{"id": "C49", "title": "Renaming the symbols changes nothing but the names", "statement": "If the tokens and non-terminals of a grammar are renamed consistently, so that different symbols keep different names, tokens keep an upper case and non-terminals a lower case initial, and error stays error, then the macro accepts the renamed grammar exactly if it accepts the original, and otherwise fails with the same error. The two parsers do the same at every call of parse() and end_of_input(): the same blocks with the same values, the same results, errors and panics. Only the names in the token enum and in the list of expected tokens differ, by the renaming. A non-terminal must not be renamed to error: that turns error recovery on (refuted).", "quantifier": "every list of declarations, accepted or not, every renaming of its symbols, every order of the hash map, every sequence of calls, all blocks", "why_tests_cant": "tests use fixed names; a dependence on the spelling, such as a sort by name, a prefix match or a clash with a generated name, shows up only for names nobody tried", "anchors": ["pomelo-impl/src/parser/mod.rs::symbol_new", "pomelo-impl/src/parser/mod.rs::is_terminal_ident", "pomelo-impl/src/parser/mod.rs::prepare", "pomelo-impl/src/parser/mod.rs::parse_one_decl"]}
{"id": "C50", "title": "The stack an input needs is the one its tree says", "statement": "Whether an input meets the %stack_size limit follows from its parse tree. Reading an element of a rule needs the entries of the elements before it in addition to its own; when a rule is complete its entries become one; the stack starts with one entry, and the root is not put on it. If the largest number of entries so counted is at most the limit, or the limit is 0, the input is accepted with the same value as by a parser without limit. If it is larger, the parse stops with the %stack_overflow block. So with a left-recursive rule lists of every length are read with a fixed stack, and with a right-recursive one the limit bounds the length. For inputs with errors the same holds, counting the entries of the parser without limit.", "quantifier": "every accepted grammar (for the statement by tree: every sentence of a grammar without precedences, every well-nested expression of an operator grammar, and everything accepted in the others), every limit, every token sequence, all blocks", "why_tests_cant": "tests overflow one grammar at one depth; an off-by-one in the limit or an entry too many for one kind of rule shows up only for an input at the limit", "anchors": ["pomelo-impl/src/parser/mod.rs::yy_shift", "pomelo-impl/src/parser/mod.rs::yy_reduce", "src/lib.rs (%stack_size)"]}
{"id": "C51", "title": "Precedences decide conflicts and nothing else", "statement": "If a grammar is accepted without any precedence lines, then adding %left, %right and %nonassoc lines and marks in square brackets on rules changes nothing: as long as they name tokens that were mentioned before and no token gets two precedences, the macro accepts the result and the two parsers do the same at every call. If the lines stand anywhere, also before the first mention of their tokens, the macro still accepts the grammar, and every input that one of the two parsers accepts without dropping a token gets the same block calls, result and extra value from the other (or runs into the stack limit).", "quantifier": "every grammar accepted without precedence lines, every set of precedence lines and marks for its tokens, every sequence of calls; the answers with lines anywhere for grammars without %wildcard and without %fallback on %nonassoc tokens, whose table rows do not collide", "why_tests_cant": "a test can compare two parsers on some inputs; that a %nonassoc line never removes an action from a conflict-free grammar, and that neither the line nor the changed use counts leak into the tables, concerns all grammars and all placements", "anchors": ["pomelo-impl/src/parser/mod.rs::resolve_conflict", "pomelo-impl/src/parser/mod.rs::find_rule_precedences", "pomelo-impl/src/parser/mod.rs::parse_one_decl", "src/lib.rs (Precedence Rules)"]}
{"id": "C52", "title": "Grammars that choose by the next token are never rejected for conflicts", "statement": "Call a grammar choosy if every rule is empty or begins with a token, a token class or alternatives; the rules of one nonterminal begin with different tokens and at most one of them is empty; a nonterminal with an empty rule is never followed by a token that begins another of its rules; only tokens and classes are marked `?`, and none of them can also follow there. The macro never reports a parsing conflict for a choosy grammar, whatever precedences, fallbacks and types it declares. If moreover the start symbol leads to every rule and every rule matches some tokens, the macro accepts the grammar exactly when it has no other fault.", "quantifier": "every list of declarations that is choosy, every order of the hash map of optional symbols", "why_tests_cant": "a test shows that one grammar has no conflicts; that merging lookaheads over all states never makes one in this whole class, with optional elements and token classes expanded, is a statement about every grammar", "anchors": ["pomelo-impl/src/parser/mod.rs::find_actions", "pomelo-impl/src/parser/mod.rs::resolve_conflict", "pomelo-impl/src/parser/mod.rs::find_states", "pomelo-impl/src/parser/mod.rs::find_follow_sets", "src/lib.rs (Precedence Rules)"]}
{"id": "C53", "title": "The shorthands of the documentation stand for what it says", "statement": "A rule without a block whose left-hand side has a type and whose right-hand side has exactly one typed element and no aliases returns, for every input, what it returns when that element is bound and the block is `{ A }`, and it is accepted exactly if that is. An element `q?` gives the same answers and the same calls of blocks as a new nonterminal of type Option<T> with the rules `o ::= q(D) { Some(D) }` and `o ::= { None }`, with the value Some(_) if q is found and None if not, and a list is accepted exactly if it is accepted with all its `q?` written out so. A rule with `A|B` gives the same answers and calls as one rule for each of the tokens, with the same aliases and block. (The documentation calls the last a shortcut; it is refuted that `A|B` is accepted whenever the separate rules are.)", "quantifier": "every list of declarations without precedences, wildcard and fallbacks (for the answers: that is accepted in both forms; for the block that is left out: with precedences and fallbacks, and its acceptance for every list), every choice of the occurrences of `q?` to write out (for acceptance: all of them), any number of alternatives, all inputs, extra values and blocks", "why_tests_cant": "a test compares the two forms of one grammar on a few inputs; that the auto-generated block, the generated optional symbol and the compound symbol agree with the long form is a claim about every grammar and every input", "anchors": ["src/lib.rs (Typed symbols, optional symbols, `|`)", "pomelo-impl/src/parser/mod.rs::normalize_rules", "pomelo-impl/src/parser/mod.rs::parse_one_decl", "pomelo-impl/src/parser/mod.rs::prepare", "pomelo-impl/src/parser/mod.rs::find_states"]}
{"id": "C54", "title": "Blocks, aliases, types and handlers do not influence how the input is parsed", "statement": "Take an accepted list of declarations and change only the code blocks and the aliases of its rules (add them, remove them, rename them, write others). The macro then accepts the new list too, unless a rule of a typed nonterminal has lost its block without having exactly one value to hand on, the value of alternatives of different types is now read, or the wildcard has got an alias; it reports no conflict and no other error that it did not report before. The same goes for all that is not syntax (types, extra arguments, error types, handlers, attributes, %token and %parser, %stack_size, %verbose, wherever these lines stand): they can be changed freely, and the macro can then only report errors about these lines, about the types, about blocks and aliases or about identifiers, never a conflict, a rule that cannot be reduced, or an error in precedences, classes, fallbacks or the start symbol. And the two parsers read every input alike, also if the lines of the syntax are only written differently (a class or the fallbacks of a token listed in two lines, the start symbol written though it is that of the first rule): an input that the first accepts is read by the second with the same derivation tree, and its answer is what that tree means under its own blocks and types (or the stack limit is exceeded); with blocks that never fail every such input is accepted.", "quantifier": "every accepted list of declarations, with precedences, classes, optional elements and fallbacks, every other choice of blocks, aliases and lines that are not syntax, all inputs, all user types and blocks on both sides (for the trees: no wildcard, no fallback on nonassoc tokens, usable tables)", "why_tests_cant": "a test can try one change of one block or type; that aliases, blocks, types and handlers never leak into the automaton, the precedences or the compressed tables is a claim about all grammars and all changes", "anchors": ["pomelo-impl/src/parser/mod.rs::normalize_rules", "pomelo-impl/src/parser/mod.rs::parse_one_decl", "pomelo-impl/src/parser/mod.rs::find_actions", "pomelo-impl/src/parser/mod.rs::generate_source", "src/lib.rs (Rules)"]}
