# Formal model of pomelo

`mod.rs` is `/repo/pomelo-impl/src/parser/mod.rs`, `lib.rs` is `/repo/pomelo-impl/src/lib.rs`,
`decl.rs` is `/repo/pomelo-impl/src/decl.rs`.

The properties are in `properties.jsonl`. Their theorems are in `rocq/theories/Properties.v`, named
`Cnn_...`; that file holds statements only, each closed by one lemma of another file and followed
by `Print Assumptions`. `Examples.v` has a concrete case for each theorem. `MANIFEST.json` lists the
theorems per property. A theorem named `..._refuted` shows a claim to be false of the model, with
a concrete grammar computed by the kernel.

## Trusted base

* The kernel of Coq 8.16.1, with `vm_compute` for the concrete grammars.
* `Print Assumptions` answers "Closed under the global context" for every theorem of
  `Properties.v`: no axiom at all, neither from the standard library nor our own. (`vcheck` lists
  seven constants of `Coq.ssr.ssrunder` that come with the standard library's ssreflect plugin
  files; no theorem depends on them.)
* That the model is the code: read side by side, each definition citing the lines it mirrors.
  Evidence beyond reading: `RepoTests.v` runs every grammar of the repository's own tests (pass and
  compile-fail), the README and `examples/json.rs` through the model, with the results those tests
  assert; `Interpreter.v` does the same for `examples/interpreter` (94 states, nine precedence lines); `seeded/LOG.jsonl` records what the theorems say of wrong versions of the model.
* The reading of the specification files `Spec.v`, `DeclSpec.v`, `TreeSpec.v`, `MeanSpec.v`,
  `CycleSpec.v`, `FaultSpec.v`, `PrecSpec.v`, `TimeSpec.v`, `MendSpec.v`, `OrderSpec.v`, `ReportSpec.v`,
  `ChooseSpec.v`, and the side conditions in `Main.v` and `TypeDecl.v`.

## What is modelled

The whole path from the tokens of a `pomelo!` block to the behaviour of the generated parser, as
executable Gallina functions, one per Rust function:

| file | code |
|---|---|
| `SourceText.v` | `impl Parse for Decls`/`Decl` of lib.rs: token trees to declarations |
| `Syntax.v` | decl.rs |
| `FrontEnd.v` | `new_from_decls`, `parse_one_decl`, `symbol_new`, `create_rule`, `prepare`, `find_rule_precedences`, `normalize_rules` (mod.rs 521-756, 1676-2081) |
| `First.v` | `find_first_sets` (763-846) |
| `States.v` | `find_states`, `get_state`, `build_shifts`, `configlist_closure`, `add_config`, `state_find`, `find_links`, `find_follow_sets` (852-1036, 1569-1674) |
| `Actions.v` | `find_actions`, `resolve_conflict`, `compress_tables`, `resort_states`, `compute_action` (1079-1429, 1747-1751) |
| `Tables.v` | `insert_action_set`, `minimum_*_type`, the checks and tables of `generate_source`, `translate_code`, `build` (342-502, 2083-2555, 2922-3022) |
| `Runtime.v` | the emitted `yy_parse_token`, `yy_parse_token_2`, `yy_find_shift_action_2`, `yy_find_reduce_action`, `yy_shift`, `yy_reduce`, `yy_parse_failed`, `yy_syntax_error`, `ExpectedTokens`, `new`, `parse`, `end_of_input` (2571-2958) |
| `User.v` | the emitted rule code (pops, patterns), `token_value`, `token_build`, accept code (2343-2400, 2891-2958, 2964-3022) |
| `Session.v` | `extra`, `into_extra`, `extra_mut` and their use between the calls of `parse` (2604-2630) |
| `TokenText.v` | the `Token` enum and its `into_extra`, `extra`, `extra_mut` (2345-2425) |
| `Report.v` | `report_output` and when it is made (584-590, 1431-1567) |
| `Base.v` | results, in-place update, stable sort, sets as lists |

Conventions and simplifications:

* User code (rule blocks, `%syntax_error`, `%parse_fail`, `%stack_overflow`) is an arbitrary
  function of what it is given and the extra value, universally quantified in the theorems.
* A Rust panic is an explicit value (`GPanic`, `RPanic`).
* The arena of `RefCell`s (`vecref.rs`) is a list. All places that hold a borrow while they take
  another were read; the two that can meet the same cell are modelled as panics: the type of a class
  that begins with itself (mod.rs 2147-2156) and sorting the actions of a state (`sort_panics`).
* Loops without an evident bound take fuel. `GFuel`/`RFuel` is not a result of the code: that enough
  fuel exists is C30 for the macro and C06 for the parser.
* Arena ids are list positions; after `prepare` symbols are denoted by their `index` (C28 shows
  this is a bijection).
* The iteration order of the `HashMap` of optional symbols is a parameter `ord`, any permutation.
* `ps_log` in the runtime is a ghost: what the parser did, written and never read.
* Integers are unbounded (`nat`, `Z`); the element types the generator picks are modelled and C09
  says when entries fit. `i32` overflow in tables above 2^31 entries is left out.
* In `SourceText.v` the spacing of punctuation is left out, and syn's own parsers (types,
  attributes, items, blocks, patterns) are a parameter about which `syn_ok` is assumed: they take
  tokens from the front and look no further than the token that stops them.

Not modelled: parsing inside syn and printing by quote (and their panics), hygiene and type
checking of the emitted code by rustc, spans and the fixed message texts, the contents of `%include`, a user supplied `%stack_size` container type (assumed
to behave as `Vec`), user blocks that panic or `return Ok(..)` early, alias patterns that do not
match.

## Side conditions

`expands ds b`: the macro accepts the declarations `ds` and generates `b`, for some order of the
hash map. `usable ds b`: no class lists a class, no token is its own fallback, and no row of the
packed action table was put on top of another (`rows_apart`). The macro checks none of the three;
C08 gives a sufficient condition and the refutations show what happens without. `types_ok ds`:
types agree between fallbacks, classes, the wildcard and what they stand for. `plain ds`: no
precedences and no wildcard. All are decided by the functions of `Checks.v`.

## How each property is proved

* **C01** Invariant of the run (`SoundFacts.v`): the stack spells a path of the LR(0) automaton and
  carries a forest of trees whose yield is what was consumed and whose values are on the stack.
  Translated to the declarations in `MeanFacts.v`. Refuted without `rows_apart`.
* **C02, C05** Every derivation tree is a run of the abstract machine over all candidate actions
  (`AbsFacts.v`); without precedences there is one candidate per lookahead (`CleanFacts.v`) and the
  tables answer it (`PipeFacts.v`, `LookFacts.v`); so the generated parser follows the tree
  (`CompleteFacts.v`).
* **C03** Two trees give two runs of a deterministic machine (`Claims9.v`); trees are over the
  declarations (`TreeSpec.v`), and every input with a meaning has one.
* **C04** Every item of a state is valid for the stack, so the stack extends to a sentence.
* **C06** The number of reductions between two shifts is bounded: by a potential on the automaton
  (`HaltFacts.v`, `LimitFacts.v`), using the absence of cycles (`CycleFacts.v`) and the stack limit
  (`LimitRun.v`). Three refutations, one per condition.
* **C07** The invariant of C01 extended through error recovery (`SafeFacts.v`).
* **C08, C09** Invariant of the packing loop (`PackFacts.v`, `PackMore.v`), sizes in `Sizes.v`.
* **C10, C11, C12, C15** Resolution one lookahead at a time (`GroupFacts.v`), as a tournament
  (`FaultDuel.v`).
* **C13** Soundness and completeness of the two fixpoint loops against inductive definitions.
* **C14** The follow sets are the least solution of the propagation links (`FollowFacts.v`), and this
  is what canonical LR(1) items give (`LalrFacts.v`).
* **C16, C17, C18** Fallback chains (`FrontFacts.v`), lookups (`LookFacts.v`, `PipeFacts.v`).
* **C19, C20, C21, C22, C23, C25, C29** Invariants of the runtime for any tables (`RunFacts.v`,
  `RunMore.v`, `HandlerFacts.v`), joined with the tables in `Claims3.v`, `Claims4.v`, `Claims12.v`.
* **C24** The lookups of C17 for every token in turn (`Claims4.v`).
* **C26, C28, C33, C34** The grammar of a successful expansion, symbol by symbol and rule by rule
  (`DeclFacts.v`, `GramFacts.v`, `Names.v`, `LangFacts.v`).
* **C27** From the checks of the generator (`Claims5.v`, `DeclMore.v`).
* **C30** Each loop gets a bound (`ExpandFacts.v`).
* **C31** The grammars of two orders differ by a renaming of rules (`Reorder*.v`); states with the same
  strings leading to them correspond; their action lists, before and after compression, are equal
  up to renaming; so the parsers run in lockstep (`ReorderRun.v`, `Claims14.v`).
* **C32** Typing invariant of the stack (`TypeFacts.v`).
* **C35** Simulation between the generated parser and an LR parser that reads the resolved action
  lists directly (`RefFacts.v`).
* **C36** No `GPanic` in any step (`PanicFacts.v`), and exactly when the sort of the actions panics
  (`PanicSort.v`).
* **C37** The reader against an inductive grammar of declarations (`SourceFacts.v`).
* **C38** For each error its fault (`FaultFacts.v`, `FaultAct.v`, `FaultBack.v`), and none in an expanded
  grammar (`FaultNone.v`, `Claims13.v`). Faults are stated in `FaultSpec.v`.
  Which letters make a name one of a token or a nonterminal is listed in `Letters.v` (`C38_initials`), independently of the functions.
* **C39, C40** A run over the resolved action lists gives a tree in which each move was the winner of its
  place (`kept`, `KeptFacts.v`); from the items that are in a state after a prefix follow the two
  conditions on operators and the two on the dangling else (`Claims15.v`). The conditions are stated
  on the derivation tree and the declarations only (`PrecSpec.v`).
* **C41** In a grammar of operators each state is inside one rule, so the place of every node of a tree
  nested as declared is decided for it (`OpFacts.v`, `Claims16.v`). The absence of conflicts makes every
  ending rule and every operator comparable (`compared`); then each tree can be turned into a nested one
  by inserting operands one by one (`NestFacts.v`). Uniqueness is determinism of the parser with
  hooks that build the tree (`Claims17.v`).
* **C42** `timed` (`TimeSpec.v`) is the relation of C01 in which reading a token also applies what the
  caller does to the extra value after handing it over. Trees are evaluated in that way (`evalw`), and
  the invariant of C01 is proved again with the parser's extra value in it: reductions made while
  a token is the lookahead come before its change, those that need it after (`TimeFacts.v`). `extra()`
  between calls needs no theorem of its own: let the changes record what they see.
* **C43** From the invariant of the type loop (`TypeFacts.v`, C32) and `declared` (`Claims19.v`). The
  accessors are given a meaning on typed values (`access`), where an arm that rustc would reject
  is `None`; that no token type is the pair of the shared type and another is `pair_not_self`.
* **C44** `mended` (`MendSpec.v`) is the relation of C01 with fates on the tokens and two more ways to make
  an `error`, or, in a grammar without `error`, one to pass over a token. The stack always spells such
  a reading of what has been handed over (`goodm`, `MendFacts.v`); popping entries in recovery moves their
  part of the reading into the `error`. A token wrong at the very start or end needs no clause of its
  own, since the start rule is reduced on the end of the input only.
* **C45** Amortised: between two heights of the stack not reached again only a bounded number of
  reductions fit (`above` and `inner` of C06), so the reductions made on one token are paid by the
  entries they remove (`level_count`, `LinearFacts.v`); recovery pays each pop with the popped entry.
  The log of the model has one event for each step, and the fuel bounds the rounds of the loop. Without
  precedences and with productive names there is no hidden left recursion at all (`HiddenFacts.v`):
  the parser would have to guess the number of empty symbols in front.
* **C46** The grammars of two rearrangements are isomorphic: symbols by their names, names made for `X?` and
  `(A|B)` by the rule and place they come from (`OrderIso.v`, `AnonFacts.v`). An isomorphism that keeps the
  order of the rules with a precedence keeps conflicts and lost rules (`IsoFacts.v`), so every fault of C38
  is a fault of both. For the answers, a tree kept by one automaton is kept by the other
  (`IsoRun.v`), found again through its meaning in the declarations (`OrderRun.v`). Token
  numbers, the order of the variants, the lists of expected tokens and what happens after a wrong
  token may differ. The documentation promises more than holds: see the two refutations.
* **C47** `report_output` is modelled line by line. The claim speaks of the words of the lines
  (`ReportSpec.v`): one section for each set of items, with the items, moves and marks that FIRST, the
  derivations and the precedences give (`offers`, `prefers`, `conflict_at` of C38), without the automaton.
  The numbering of the sections is the automaton's own, `path` (`LalrFacts.v`); what becomes of
  each offered move in `resolve_conflict` is `fates` in `ReportActs.v`.
* **C48** An input accepted before has a meaning in the old declarations (C01), the meaning survives the
  additions (`grown_means`), and what has a meaning is accepted (C02); by C03 it has no other.
* **C49** Every function of the front end commutes with the renaming (`Rename.v`: `sim` relates two
  computations that end alike), and no later function and no function of the generated parser reads a
  name (`RenameBack.v`).
* **C50** `stack_for` (`Claims25.v`) counts the entries from the tree alone. `DepthFacts.v` relates the runs with
  and without a limit for all inputs: the first that would need more entries than allowed is where the
  limited one stops. `TraceFacts.v` shows that an accepted run reads exactly the tokens and completes exactly
  the rules of a tree, in order. With `%stack_size 4`, left
  recursion reads lists of any length and right recursion three items (`Examples.v`).
* **C51** `PrecErase.v` rubs the precedences, the marks and the numbers of uses (but that of `error`) out of
  the grammar and shows function by function that nothing but `resolve_conflict` reads them; without
  precedences a grammar is accepted only if `resolve_conflict` finds nothing to decide (`states_none`). A token
  that is mentioned in a precedence line first gets another number, so lines anywhere go through C46.
* **C52** `chooses` (`ChooseSpec.v`) is the usual condition for choosing a rule by one token, with what can
  come after a name as the only derived notion. In such a grammar the items of a state are one item that was
  moved over a symbol and the rules of the name after its dot, so no two moves compete (`ChooseFacts.v`). The
  claim about the macro follows with C38. `chooses_b_ok` (`Claims27.v`) checks the condition for a
  given grammar, and `Examples.v` has a grammar that misses it in one place and is rejected.
* **C53** The documentation explains three shorthands by what they are "equivalent to", "converted to" or a
  "shortcut of". `Claims28.v` writes each of them out as the documentation does (`handed`, `unwrapped_decl` with
  `opt_lines`, `rule_each`) and shows that the two lists of declarations give every input the same meaning, hence by
  C01 and C02 the same answer and block calls. For a block that is left out `Claims31.v` shows it with precedences and
  fallbacks too, and that both lists are accepted alike (from C54). `Claims29.v` shows that writing out `q?` everywhere changes nothing
  about acceptance either: `OptIso.v` numbers the symbols and rules of the two grammars by what they stand for, which
  makes them isomorphic, and the remaining faults of C38 are compared one by one. That the long form of `A|B` is accepted does not make the short
  one acceptable: a state that can shift `A` and `A|B` has a conflict (refutation).
* **C54** `reblocked` relates two lists declaration by declaration: the same, but for the block and the aliases of a
  rule. The grammars made from them are isomorphic (`BlockIso.v`: the hash map may number the optional symbols
  differently) and keep the order of the rules that precedences compare. So they have the same conflicts and lost
  rules, and the faults of C38 other than the three about blocks and aliases are the same (`Claims30.v`). At run time
  the kept trees correspond node by node (`Claims31.v`, with `kept_alike` of C46), so the second parser
  evaluates the tree that the first one built, with its own blocks, values and extra data. None of this needs the types
  to agree: `skeleton` keeps the lines that the syntax is made of (rules without blocks and aliases, precedences,
  classes, fallbacks, wildcard, start symbol). Faults are compared for any two lists with equal skeletons, trees for any
  two that say the same of every name (`same_syntax`), as when a class is listed in two lines.

## Where the code and its documentation differ

Found while proving; each is a `_refuted` theorem or stated in the property.

* Packed rows may overlap, so a parser can accept a non-sentence (C01, C08) or panic (C07). It also
  happens in the repository's own `tests/pass/stack.rs` and `auto_rule.rs`, where it does no harm.
* The offset tables pick their type by the largest entry only (C09).
* Equal `%left`/`%right` precedences of two rules silently keep the later rule; the documentation says
  the first is kept and a conflict reported (C11).
* A `%nonassoc` error is lost on a token with a fallback or in a grammar with a wildcard (C12).
* A token may be declared its own fallback; the macro or the parser may then loop (C16, C30).
* The wildcard's reduction can be taken instead of the token's own (C18).
* With `error` in the grammar `%syntax_error` can run for consecutive tokens; without it `%parse_fail`
  is not run at the first error. The documentation says otherwise (C20, C21).
* A token possible when `parse()` was called can be missing from the expected tokens (C24).
* The `?` of `(A|B)?` is ignored (C26).
* `%stack_overflow` gets no token when a non-terminal did not fit (C25).
* Some accepted grammars make `parse()` run for ever (C06).
* An empty `%token_class`, or one beginning with itself, makes the macro panic (C36).
* If a token can be shifted in two ways in a state and one leads back to the state, as with
  `%token_class K A B; %token_class L A C; list ::= K list; list ::= L list;`, the conflict is not
  reported: sorting the actions borrows the state while it is held, and the macro panics (C36).
* A rule without block needs its `;` before another rule, though documented as optional (C37).

Seen while reading, not the subject of a theorem:

* `src/lib.rs` 98 gives the output of `end_of_input` as `(ExtraType, TypeOfStartSymbol)`; the generated
  function returns the root first and the extra second (mod.rs 2618, 2654-2656).
* The example rule in `src/lib.rs` 306 uses `C`, which no pattern of the rule binds.

## Mutation tests

`seeded/LOG.jsonl` has one line per wrong version of the model that was tried: the definition, the
edit, the claim it should break, the theorems that failed and those tightened afterwards.
