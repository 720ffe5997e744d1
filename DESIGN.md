# Formal model of fcs-ql-python in Rocq (Coq 8.16.1)

## 1. Layout of `rocq/theories`

**Model** (definitions only; each definition cites the file and lines of /repo it models and says
where it simplifies):

| file | models |
|---|---|
| Base.v | Python strings (lists of code points), slices, `str` helpers, exceptions as values (`res`) |
| Regex.v | regular expressions with derivatives: the notation in which FCSLexer.g4 is written down |
| LexRules.v | FCSLexer.g4 transcribed as data (token types, fragments, rules in order) |
| Lexer.v | ANTLR's lexer loop: longest match, first rule, error recovery, line/column, EOF token |
| Grammar.v | FCSParser.g4 transcribed as EBNF data, rule by rule |
| Antlr.v | the parser as the repo uses it: at each decision the least viable alternative; parse trees, `ctx.start/stop`, `getText`, child access |
| GenParser.v | the generated code FCSParser.py itself, method by method: `match`, `consume`, the inlined single-token tests with their bit masks, `self.state` numbers, `adaptivePredict` and `sync` as parameters |
| AtnData.v | the two `serializedATN()` tables, copied number by number by `tools/gen_atn.py` |
| Atn.v | the deserialiser of ANTLR 4.13 for these tables, and what a deserialised network accepts: paths, lexer texts and actions, parser trees, prediction (`reach`, `least_alt`, `predicts`), synchronisation (`syncs`) |
| AllStar.v | `ParserATNSimulator.adaptivePredict` (SLL, then full context) and the check of `DefaultErrorStrategy.sync`, on a deserialised network |
| Recover.v | what the generated parser does about errors: `try/except` around the rule methods, `Parser.match`/`consume`, `DefaultErrorStrategy` (report, recover, sync, single token deletion and insertion), token fetching and the order in which lexer and parser report |
| Ast.v | QueryNode and its twelve subclasses: constructors, accessors, predicates, `__str__`, parent links (object heap), visitor classes |
| Builder.v | ExpressionTreeBuilder: the explicit-stack machine over parse trees, unescaping, flags, repetition |
| Parser.v | ErrorListener, SourceLocation, QueryParser (state and `parse`), `parse`, `can_parse`, `antlr_parse` |
| Threads.v | `QueryParser.parse` as a sequence of steps, several calls on one object, asynchronous exceptions |
| ContextData.v | the 23 context classes of FCSParser.py (accessors, dispatch names), constants and name tables, methods of FCSParserListener.py and FCSParserVisitor.py, extracted by `tools/gen_contexts.py` |
| Contexts.v | accessor calls, `ParseTreeWalker.walk` with a listener, `ParseTreeVisitor.visit` |
| Display.v | `toStringTree` (debug log, examples/run_parse.py), `getSourceInterval`, token indices |
| Cache.v | the DFA objects shared by all lexers and parsers of a process (`decisionsToDFA`), simulations as single reads and writes of them, threads, kills |
| Cached.v | `QueryParser.parse` as a program that asks for simulations (lexer, prediction, error reports, tree) |
| Validation.v | Validator (stack, errors, warnings), FCSQLValidator, `is_likely_a_regex`, `fcsql.validate` |
| ModelTests.v | the repo's own test queries and further examples evaluated in the model (tests, not proofs: they check the model against the behaviour the repo documents) |

**Specifications** (small, independent of the model's helpers; read these and the theorem statements):

| file | says |
|---|---|
| LitSpec.v, ValueSpec.v | what a literal is and means, flag sets, scope words, decimal numbers, normalisation |
| LexSpec.v, TokenSpec.v | languages of the lexer rules; how each token type is spelled (`spelled`), rule order (`preferred`) |
| GramSpec.v | derivation trees of FCSParser.g4, `conforms`, `viable`, the derivation chosen by least-viable prediction (`selects`) |
| SpellSpec.v | which token sequences denote which trees (`sp_query`, `sp_expr`, ...) |
| ParseSpec.v, ConfigSpec.v, TreeSpec.v, CoverSpec.v | acceptance condition, erasing locations, node shapes, leaves and parentheses of a query text |
| LevelSpec.v, QuerySpec.v | the textbook precedence tree of a level and the exact deviation; the canonical query-level structure |
| DepthSpec.v | height of results and parse trees, bracket nesting, negations |
| MeanSpec.v | token sequences that say the same in other words |
| ErrorSpec.v | beginnings of valid queries, the names of token kinds and how messages list them |
| ComplaintSpec.v | numerals; which token makes a well-formed query unusable and what is said about it |
| HoleSpec.v | queries with holes (`fill`), values of a tree, its outline without values |
| SizeSpec.v | numbers of nodes and tokens |
| DisplaySpec.v | what is left of a displayed tree; tokens between two indices |
| LayoutSpec.v | moving the source locations of a tree; where characters go when others are put in |
| VComposeSpec.v | verdicts and complaints of `validate`; complaints moved and laid out anew |
| WorkSpec.v | the number of DFA simulations of a call, and what each has in front of it |
| AsciiSpec.v | printable ASCII texts |
| SynSpec.v | token sequences that are wordings of one query (by quantifier, literal, bare or bracketed comparison) |
| PortSpec.v | two trees that are the same up to the normalisation of their values |
| ShapeSpec.v | trees of the same shape, with corresponding locations |
| AccessSpec.v, ValidSpec.v | accessors by position and class; layer, qualifier and POS rules, findings of a tree |

**Proofs**: all other files; the property theorems (`Cnn_...`) are in `Props*.v` and are listed per
property in MANIFEST.json. Next to the theorems stand `Example`s named `Cnn_witness...`, which evaluate concrete
non-trivial cases that meet the hypotheses.

**Tools**: `tools/gen_properties.py` writes properties.jsonl, `tools/gen_manifest.py` MANIFEST.json,
`tools/gen_model_tests.py` ModelTests.v, `tools/mutate.py` runs the seeded bugs of `seeded/mutants.py`
(results in `seeded/LOG.jsonl`).

## 2. Trusted base

* **Coq 8.16.1's kernel** (incl. `vm_compute`, used in `Example`s and for finite checks), and coqc's parser.
* **Axioms.** None of our own: no `Axiom`, `Parameter`, section-less `Variable`/`Hypothesis`, `Admitted`.
  `Print Assumptions` says *Closed under the global context* for every theorem of MANIFEST.json
  (checked by `tools/assumptions.sh`). The seven entries vcheck lists under `library_axioms`
  (`Coq.ssr.ssrunder.Under_rel.*`) are the fields of a module type in Coq's own ssreflect plugin that is
  loaded with `Coq.Setoids`; no theorem depends on them.
* **The reading of the code**: the model was written from the text of /repo; the code was not run.
  ModelTests.v evaluates the queries and expected results of /repo/tests in the model.
* **Code outside /repo that the model replaces by its documented behaviour**
  * antlr4-python3-runtime: lexer driver (longest match / first rule / recovery), token stream, tree walking,
    and ALL(*) prediction. The tree the model works with is specified by prediction: `adaptivePredict` returns the least
    alternative that leads to a complete parse of the remaining input in the full calling context, if
    there is one (Parr, Harwell, Fisher, OOPSLA 2014). In `GenParser.v` it is a *parameter* that is only assumed to satisfy
    this over the deserialised network of FCSParser.py (`predicts parser_atn`), and an instance is constructed (`C52_predicts`).
    `sync` is a parameter only assumed to accept a token that can come next in the network (`syncs parser_atn`).
    The runtime's own algorithms (SLL simulation, switch to full context, conflict detection; the check of `sync`) are modelled in
    AllStar.v, from the runtime's published source as remembered (it is not in /repo), and C61 proves that they meet these two
    assumptions wherever the generated parser calls them: for this grammar they need not be trusted, only transcribed. The deserialiser
    is modelled for the parts that occur in these two tables (Atn.v); that the runtime interprets a network as the usual recursive
    transition network (lexer: longest match, first alternative of the mode) is trusted.
  * ANTLR's error *recovery*: which syntax errors are reported for a token sequence outside the grammar is a parameter
    `e_calls` of the environment, constrained by `env_ok` (at least one error pointing at a token; every reported call is a
    lexical error or points at a token of the stream). `Recover.v` models the runtime's default error strategy (again from the
    runtime's published source as remembered) and C64 proves that it meets `env_ok` (`C64_contract`), so every theorem that
    assumes `env_ok V` holds for `antlr_env`, in which no part of ANTLR is left open. Not modelled there: the parse tree with
    error nodes (discarded by all callers when an error was reported).
  * `unicodedata.normalize`, `repr` of a list of strings: arbitrary functions (parameters). CPython's int-from-string digit
    limit and whether `chr` beyond a C int raises OverflowError (before 3.13) or ValueError: parameters.
  * `re.escape`, `str.isspace`, `str.startswith`, `str.translate`, `chr`, `int`: modelled explicitly
    (`int`/hex on the ASCII digits the lexer lets through).

## 3. What is and is not modelled

Modelled: all of parser.py (node classes, visitors, SourceLocation, ErrorListener, ErrorDetail, ExpressionTreeBuilder,
QueryParser), validation.py, `__init__.py` (`antlr_parse`, `parse`, `can_parse`, `validate`), FCSLexer.g4, FCSParser.g4, the rule
methods of FCSParser.py, the serialised ATNs of FCSLexer.py and FCSParser.py, the defaults of FCSParserVisitor.py, the context classes and name tables of FCSParser.py, FCSParserListener.py.

Not modelled: logging; Python's recursion limit and memory; PredictionContextCache (interning of equal contexts) and the cached `ATN.nextTokens` sets;
type annotations; abstract base classes (the method table of a visitor is a finite map from names to methods); examples/ and docs/.

Simplifications are named at the definitions. The important ones:
exceptions are values; Python objects are values (the tree as a term) in most theorems and heap cells with identity where parent
links matter (`parser_parse_heap`, related to the value reading by C25); `regex_flags` sets are four booleans (their iteration order is not
modelled, `str()` prints them in the order of the code's `if`s); identifiers of `QueryParser` attributes that are never written after
construction are a record.

## 4. Properties and how each is proved

(M: what is modelled. P: how it is proved.)

| id | modelled and proved |
|---|---|
| C01 | M `handle`, `parser_parse`, `can_parse`. P case analysis on the handler; nothing but QueryParserException leaves `parse`. |
| C02 | M everything up to `build_tree`. P soundness and completeness of the builder on derivation trees (`BuilderRules`, induction on trees): accepted iff no lexical error, in the grammar, literals decodable, flags consistent, bounds ordered, integers within the limit. |
| C03 | M `lex_loop`. P induction on the input with a tiling invariant. |
| C04 | M rules as regular expressions, `exec_atn`. P derivatives are sound and complete for the languages; maximality by induction; spelling of each token type. |
| C05 | M lexer and parser. P lexing is local at token boundaries (`LexWs`), parsing depends on token types and texts only (`SimFacts`). |
| C06 | M lexer to builder. P quoting produces one REGEXP token whose decoding is the text. |
| C07 | M `unescapeString` with all helpers. P decoding = element-wise meaning of the literal (`ValueFacts`, induction on elements). |
| C08 | As C02 and C07; the naive contract is refuted. |
| C09 | M `processRepetition(Range)`, `getChildIndex`. P per derivation of `quantifier`, for every node of every tree. |
| C10 | From C09 and the acceptance condition. |
| C11 | M `flag_loop`, `regexp_flags`. P induction on the flag string. |
| C12 | M `pcfg`. P two runs in lock step (`SimFacts`). |
| C13 | M `visitAttribute`, `visitExpression_basic`. P from the spelling relation. |
| C14 | M `visitQuery`, `within_scope`. P from the spelling relation. |
| C15 | P from the spelling relation, for every node. |
| C16 | M prediction. P `QueryThm`: what prediction selects at query level, by induction on the token sequence. |
| C17 | P leaves of the tree = leaves of the text, induction on the spelling relation. |
| C18 | P refutation by evaluation; the invariant part by induction. |
| C19 | P `LevelThm`: exact characterisation of the deviation, induction on terms and factors of a level. |
| C20 | P as C17 for parentheses. |
| C21-C23 | M `fromContext`, token offsets. P every node's location is the span of its tokens; spans nest and are ordered; lexing a span gives exactly its tokens (`LexSub`). |
| C24 | P lock-step of two configurations. |
| C25 | M heap, `init_node`. P heap run simulates value run, with fresh ids (`HeapFacts`). Several calls: `PropsFresh.v` (`rep_stable`, induction over the calls). |
| C26, C27 | M the parser object's state. P by cases; histories by induction. |
| C28-C34 | M accessors of Ast.v. P by cases/induction on children; false contracts are refuted, the exact behaviour proved. |
| C35, C36 | M `visit`, `visit_children`, method tables. P nested induction on trees. |
| C37-C41 | M Validator state and methods. P the run of a validator = its findings in order, by nested induction (`ValidFacts`); histories by induction. What a raising call leaves behind: `PropsStack.v` (`ancestors`), by induction on the tree (`visit_left`), and over histories (`C41_adds_up`). |
| C42-C44 | M the three checks. P decision tables on what the validator records, for every configuration and expression/tree. |
| C45-C47 | M `fcsql.validate`. P from C37-C42 and C21/C22. |
| C48, C49 | M ErrorListener, SourceLocation.fromToken, `antlr_parse`. P from the lexer theorems and `env_ok`. |
| C50 | M `__str__`. P unique readability of the printed form (`StrFacts`), refutations by evaluation. |
| C51 | P lock-step with normalisation as a parameter. |
| C52 | M FCSParser.py (GenParser.v). P every method is its grammar rule; FIRST/FOLLOW argument for every inlined test; the run builds exactly the selected derivation and ends within linearly many steps. |
| C53 | M constructors on the heap. P by computation on the heap. |
| C54 | M both tables and the deserialiser. P a checker (`check`) that a piece of a network is a right-hand side, verified once for all networks (`frag_lang`, both directions), run on the two tables. |
| C55 | P every state of the table is labelled with what is left to read in its rule (checked), so reading to the end is `viable`, which is decidable. |
| C56 | P `ReadSpec.v`: unambiguous grammar of readings over tokens; uniqueness by bracket balance and clean separators, existence from every spelling; equality with the parser's tree by walking both with C19 at every level and C16 at every group; the converse by C19 again. |
| C57 | P `WriteSpec.v`: printer of trees; its words are lexed as such (maximal munch stops at the space), the tokens spell the tree (induction on the stratified tree), then C56. Converse: induction on readings; numerals without leading zeros are the shortest. |
| C58 | P `LexJoin.v`: tokenising joined texts (no token runs across a character that cannot continue one). `Local.v`: prediction inside balanced brackets does not depend on what follows the closing bracket. `Outer.v`, `Compose*.v`: parse as a relation over tokens, invariant under moving them; the relation composes. |
| C59 | M `Threads.v`: `QueryParser.parse` as steps between accesses to shared data; events: new call, step, interrupt, fault. P invariant over all schedules; a measure for progress. For the DFA caches shared by all parsers see C71. |
| C60 | M `ContextData.v`, `Contexts.v`: context classes, walker, visitor. P upper and lower bounds on the number of children of a kind computed from the EBNF body and proved for all derivations; finite tables by computation; induction on trees. |
| C61 | M `AllStar.v`. P closures are complete (inside a rule, with a stack, with unknown callers: every real stack is an extension of a simulated one), loop invariants: every viable alternative has a configuration that can read the rest; with full context the converse; conflict resolution picks the least; the finitely many facts about the table by computation; the generated methods only ask for decisions of their own rule in contexts that calls have built. |
| C62 | `DepthSpec.v`: height, nesting, brackets, negations. P induction on spellings (`DepthFacts`) and on stratified trees; evaluation inverted along the parse tree for the factor three; towers written with C57 for optimality. For all results: a disjunction inside a conjunction starts with `!` (`OrInAnd`, `OrTree`: otherwise a smaller alternative was viable), then a potential argument (`DepthAll`). |
| C63 | `MeanSpec.v`: `says_same`. P the kinds of the tokens alone decide the derivation (`parse_e` on blanked tokens); induction over the derivation compares what the builder reads off the two trees, rule by rule (`MeanFacts`). |
| C64 | M `Recover.v`: `recovering`, `parser_calls`, `antlr_calls`. P termination by a measure (tokens left, then error states not yet visited at this token) against the recursion depth of the methods on their static call structure, computed per first-token set (`RecoverNeed`, `RecoverTerm`); invariants of the calls (`RecoverInv`); simulation with `GenParser.run` up to the first error (`RecoverSim`), then C61. |
| C65 | M `Recover.v` again. S `ErrorSpec.v` (`beginning`, token names, listing). P `RecoverFirst`: up to the first error the right-hand sides still to be read are an invariant (`pend`, as in GenNet); the expected-token sets are exactly what the network can read next, which is what those right-hand sides can derive next. `RecoverView`: what prediction has read when it finds no viable alternative was read along real paths of the network (no configuration has left the rule, or it would have chosen that alternative). Exactness of the position is refuted by a concrete query. |
| C66 | M `Builder.v`, `Parser.v`. S `ComplaintSpec.v` (positional numerals, `complaint` of a token after its predecessors, `first_complaint`). P `ComplaintFacts` (values, composition of token lists), `ComplaintRules` (induction on derivations: the visitor raises exactly at the first complaint, nothing else raises), `Numerals` (the numerals printed are the customary ones and unique). `C09_numbers` uses the same numerals for the bounds of quantifiers. |
| C67 | S `HoleSpec.v` (`fill`, `values`, `outline`). P literals are prefix-free and quotes continue no other token, so tokens of a filled template are the tokens of its parts and the literals (`HoleFacts.fill_tokens`); the comparison of C63 generalised to any relation between literals (`MeanFacts.says_if`), used with a normalisation that forgets the value; the values by C17. `C67_refuted_unquoted` for the need of quoting. |
| C68 | S `SizeSpec.v`. P induction over the spelling relation for results; for parse trees a potential per rule (`slack5`), checked against every rule body once and for all, and induction over derivations (`SizeFacts`); `C68_most` by C58. |
| C69 | M `Display.v`. S `DisplaySpec.v`. P displayed literals delimit themselves (element by element); other token texts contain no blank or bracket (computed from the lexer rules), so every part of a display ends where the next begins (`tree_inj`, induction on trees); results by the generalised C63; intervals because the leaves of a context are a slice of the tokens and starts strictly rise. |
| C70 | S `LayoutSpec.v`. P two parse trees of the same shape whose leaves correspond give results with corresponding locations (`derives_moves`, induction on derivations); the offsets of all tokens after white space is put in (`lexf_insert_offs`, induction on the lexemes in front) |
| C71 | M `Cache.v`, `Cached.v`. P invariant over all histories: every stored start state and edge is what would be computed, contents of states never change, every simulation is on its way to the answer without tables (`sstep_ok`); a measure for progress; the programs compute what the model without tables computes (`CachedFacts`, induction on fuel). |
| C72 | S `VComposeSpec.v`. P findings of a moved tree are the moved findings (`findings_reloc`), findings of trees put together are those of the parts (from C37); with C70 and C58; fragments by arithmetic on slices (`slice_shift`) |
| C73 | S `WorkSpec.v`, M `Cached.v`. P a static bound for predictions without progress and per unit of progress (`work`, checked by `vm_compute` over all generated methods, `sound_methods`), and an induction over the fuel of the recovering parser (`rrun_work`) with the potential of C64 (tokens left, recovery states left); the tree pass makes the predictions of the error pass (`lockstep`); with the measure of C71. Not counted: the work inside one simulation when a new DFA state is computed (sets of configurations), and full-context prediction, which uses no table. |
| C74 | S `AsciiSpec.v` (printable characters). P the tokens are written one by one, joined by blanks; characters of literals outside the range become 8-digit escapes (`hexn_value`); every other token is printable by the classes of its lexer rule (`plain_rules_printable`, by `vm_compute`); with the lexer result of C51 (`words_tokens`) and C63. |
| C75 | S `SynSpec.v` (wordings, in terms of tokens only; no trees). P ⇒: by induction on the deterministic reading of C53/C66 (`Outer.v`, `Compose.v`) of the first query against that of the second (`tree_query`); ⇐: both wordings are read by induction on the relation (`same_query_tree`), the content of brackets through C63's `says_if` (`lv_both`); both directions then go through `parse_iff_o`. Validation: findings depend on the tree without locations only (`findings_erase`). Written text: with C57 (`PropsSynW.v`). |
| C76 | S `PortSpec.v`. The interpreter is the record `env` (normalisation, digit limit, `chr` overflow, error recovery), quantified everywhere; C76 relates two of them. P every conversion of the builder, run twice, agrees where both succeed (`chr_agree` ... `value_agree`), then by induction on the parse tree over the evaluation of C22 (`ev_agree`); acceptance by the exact condition of C02. `C76_rejected` is the converse for refusals. Validation: `PropsPortV.v`. |
| C77 | S `ShapeSpec.v`. P the parse tree depends on the kinds of tokens only (`antlr_query_shape`, from C63); by induction on its derivation both evaluations have the same shape (`derives_shapes`), locations as in C70 (`ctx_locs`). Acceptance: C02. |

## 5. Known limits

* C18, C28, C30, C33, C34, C36, C41, C48, C49 (and the naive forms of C08, C50): the contract one would expect (documented or suggested by names) is
  *false of the code*. The properties state the exact behaviour, and the expected contract is refuted by a theorem.
* No theorem is stated only partially at present (`_partial` names: none).
