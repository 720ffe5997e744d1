#!/usr/bin/env python3
# Regenerates /verif/properties.jsonl (one JSON object per line).
import json, os
P = []
def p(id, title, statement, quantifier, why, anchors):
    P.append(dict(id=id, title=title, statement=statement, quantifier=quantifier,
                  why_tests_cant=why, anchors=anchors))
PA = "src/fcsql/parser.py"; VA = "src/fcsql/validation.py"; IN = "src/fcsql/__init__.py"
LG = "src/fcsql/FCSLexer.g4"; PG = "src/fcsql/FCSParser.g4"; PP = "src/fcsql/FCSParser.py"

p("C01","parse() either returns a tree or raises QueryParserException",
  "For every query string, QueryParser.parse returns a query node or raises QueryParserException; no other exception (IndexError from unescaping, OverflowError from chr, AssertionError from a missing child, ...) leaks; can_parse(q) is True exactly when parse(q) returns.",
  "every Python str, every parser configuration, every behaviour of the Unicode-normalisation and error-recovery code",
  "A test samples strings; the leak-freedom claim ranges over all strings, including those reaching rarely exercised error branches of the tree builder.",
  [PA+":QueryParser.parse", PA+":ExpressionTreeBuilder", IN+":can_parse"])
p("C02","Exact acceptance condition",
  "parse(q) succeeds if and only if: q tokenises without lexical error, the token sequence belongs to the grammar FCSParser.g4, every quoted literal contains only decodable escapes (not \\} or \\], and \\U at most 10FFFF), every flag string is a consistent combination, and every {m,n} has m <= n with integers within the interpreter's digit limit.",
  "every Python str and every parser configuration",
  "An iff over all strings cannot be sampled; tests only show individual accepted/rejected strings.",
  [PA+":QueryParser.parse", PA+":ExpressionTreeBuilder", PG, LG])
p("C03","Tokenisation tiles the query",
  "Tokens, skipped whitespace and lexical-error fragments are contiguous, in order and without overlap or gap: concatenating their texts gives back the query, each token's text is query[start:stop+1], and the tokeniser always terminates.",
  "every Python str", "Holds for every string, including ill-formed ones.",
  [LG, "src/fcsql/FCSLexer.py", PA+":QueryParser.parse"])
p("C04","Longest match, first rule wins",
  "Each token is the longest prefix of the remaining input that any lexer rule matches, typed by the first such rule; in particular 'within', the scope words and flag strings are never reported as plain IDENTIFIER, and no token is ever of the QUOTED_STRING type.",
  "every Python str and every token position", "Quantifies over all prefixes and all rules.",
  [LG])
p("C05","Whitespace between tokens is irrelevant",
  "Inserting white space at any token boundary (including start and end) of a query changes neither acceptance nor the resulting tree, apart from source locations.",
  "every query without lexical errors, every boundary, every white-space string of the grammar's WS class",
  "Universal over queries and insertion points.",
  [LG+":Space", PA+":QueryParser.parse"])
p("C06","Any text can be searched literally (quoting round-trip)",
  "For every text s, the query consisting of s in double (or single) quotes, with backslashes and that quote character escaped by a backslash, parses to one segment (min=max=1) with one expression on the default layer and operator whose regex is the normalised s, without qualifier and flags.",
  "every Python str s", "Round-trip law over all strings of all lengths.",
  [PA+":ExpressionTreeBuilder.visitRegexp", PA+":ExpressionTreeBuilder.unescapeString", PA+":ExpressionTreeBuilder.stripQuotes", LG+":QUOTED_STRING"])
p("C07","Escape decoding follows the escape table",
  "For every literal the tokeniser accepts, the regex value before normalisation is the concatenation of the decodings of its elements: plain characters and \\\\ \\\" \\' stand for themselves, \\n \\t for newline and tab, regex metacharacter escapes keep their backslash, \\xHH \\uHHHH \\UHHHHHHHH for the code point; decoding never runs past the end of the literal.",
  "every literal accepted by the lexer", "All literals of any length and nesting of escapes.",
  [PA+":ExpressionTreeBuilder.unescapeString", PA+":ExpressionTreeBuilder.unescapeUnicode", PA+":ExpressionTreeBuilder.parseHexChar"])
p("C08","Which grammar-legal escapes are usable",
  "A query that tokenises and conforms to the grammar, with consistent flags, ordered repetition bounds and integers within the digit limit, parses exactly if none of its literals contains one of the undecodable escapes: \\} and \\] (which the lexer grammar lists but the tree builder does not know) and \\U above 10FFFF. (The stronger contract \"every escape the lexer grammar lists is usable\" is false of this code and is refuted.)",
  "every query in the grammar", "Universal; the shipped tests only try some escapes.",
  [LG+":ESCAPED_CHAR", PA+":ExpressionTreeBuilder.unescapeString"])
p("C09","Repetition quantifiers mean what they say",
  "* + ? {n} {n,} {,m} {n,m} give (0,unbounded) (1,unbounded) (0,1) (n,n) (n,unbounded) (0,m) (n,m), no quantifier gives (1,1), for segments and groups alike and for all integers n, m (decimal value, leading zeros allowed).",
  "every quantifier over all natural numbers", "Unbounded integers.",
  [PA+":ExpressionTreeBuilder.processRepetition", PA+":ExpressionTreeBuilder.processRepetitionRange"])
p("C10","Occurrence bounds of parsed nodes are sane",
  "In every tree returned by parse, every segment and group has min_occurs >= 0 and max_occurs either unbounded (-1) or >= min_occurs; queries with min > max are rejected.",
  "every query, every node of its tree", "All queries and nodes.",
  [PA+":ExpressionTreeBuilder.processRepetitionRange", PA+":QuerySegment", PA+":QueryGroup"])
p("C11","Regex flags decode to a set",
  "The flag string after / is decoded to the set {i,c -> case-insensitive; I,C -> case-sensitive; l -> literal; d -> ignore-diacritics}, independent of order and repetition; it is rejected exactly if case-insensitive and case-sensitive occur together or literal occurs with any other; no flags gives regex_flags None.",
  "every flag string over the lexer's flag alphabet, of any length", "Unbounded strings, all permutations and repetitions.",
  [PA+":ExpressionTreeBuilder.visitRegexp", PA+":Expression"])
p("C12","Parser defaults apply to bare literals only",
  "A bare quoted literal yields an expression with the parser's default_identifier, default_operator and no qualifier; an expression in brackets never depends on default_identifier/default_operator.",
  "every query and every pair of parser configurations", "Relational property over pairs of runs.",
  [PA+":ExpressionTreeBuilder.visitQuery_implicit", PA+":QueryParser.__init__"])
p("C13","Attributes are taken verbatim",
  "For every bracketed basic expression [q:i OP lit] the node carries exactly qualifier q (None if absent), identifier i (also when spelled like a keyword, scope word or flag string) and EQUALS for '=', NOT_EQUALS for '!='.",
  "every identifier spelling the lexer accepts, every operator", "All identifiers.",
  [PA+":ExpressionTreeBuilder.visitAttribute", PA+":ExpressionTreeBuilder.visitExpression_basic", PG+":attribute"])
p("C14","Within clause",
  "The root is a QueryWithWithin with children [query, SimpleWithin(scope)] exactly if the query ends in 'within <scope>'; the scope follows the documented word/abbreviation table; no inner node is a QueryWithWithin or SimpleWithin.",
  "every query", "All queries and all inner nodes.",
  [PA+":ExpressionTreeBuilder.visitQuery", PA+":ExpressionTreeBuilder.visitWithin_part_simple"])
p("C15","Shape of returned trees",
  "Every tree returned by parse is well-shaped: And/Or/Disjunction nodes have at least 2 children, Sequence at least 1, Segment/Group/Not/ExpressionGroup exactly 1, expressions and wildcards none; sequences contain only segments and groups; segments contain expression-level nodes; groups contain a sequence or disjunction.",
  "every query, every node of its tree", "Structural invariant over all trees.",
  [PA+":ExpressionTreeBuilder", PG])
p("C16","Query-level structure is determined by | and juxtaposition",
  "Outside brackets the tree is exactly: one item -> that segment/group; several juxtaposed items without | -> one flat sequence in order; items separated by | -> one flat disjunction whose operands are a segment for a single bare item and a sequence otherwise (a lone parenthesised group operand is wrapped in a one-element sequence).",
  "every query", "The grammar is ambiguous here; the claim is about which of the possible trees is returned for all inputs.",
  [PG+":main_query", PG+":query_disjunction", PG+":query_sequence", PP])
p("C17","Nothing lost, duplicated or reordered",
  "The expression and wildcard leaves of the returned tree, read left to right, correspond one-to-one and in order to the literals and empty brackets of the query text.",
  "every query", "All queries; whatever the ambiguity resolution.",
  [PA+":ExpressionTreeBuilder", PG])
p("C18","NOT over AND over OR does not always hold (documented precedence refuted)",
  "The precedence the grammar documents (NOT binds strongest, then AND, then OR) is not what the parser does on every query: e.g. in [a='x' & !b='y' | c='z' | d='w'] the AND takes a bare OR as operand. Whatever the query, though, an AND never has an AND operand, an OR never an OR operand, and the first operand of an AND is never a bare OR; and any bare OR operand of an AND starts with a negation (its leftmost operand is a NOT).",
  "every query", "Ambiguous grammar resolved by lookahead; a few samples look right while longer inputs are not.",
  [PG+":expression", PG+":expression_or", PG+":expression_and", PG+":expression_not"])
p("C19","Exactly when the tree is the textbook precedence tree",
  "Let a nesting level (inside brackets or parentheses) be T1 | ... | Tk, each Ti factors joined by &, each factor an atom with any number of ! in front. The tree of the level is the textbook precedence tree (NOT over AND over OR, flat n-ary operators, explicit groups kept) if and only if there is no i < k such that (a) a non-first factor of Ti is negated and i >= 2 or k >= 3, or (b) Ti is a single negated factor and some Tj, j > i, has at least two factors and i >= 2 or j < k. In particular it always is with at most one | on a level, and on levels without negation.",
  "every expression of any size and nesting satisfying the condition", "Unbounded expressions, any nesting.",
  [PG+":expression_or", PG+":expression_and", PG+":expression_not"])
p("C20","Parentheses are preserved",
  "Every parenthesis pair of the query text yields exactly one group node (QueryGroup outside brackets, ExpressionGroup inside) and vice versa, so parentheses are never dropped or invented.",
  "every query", "All queries and nestings.",
  [PA+":ExpressionTreeBuilder.visitQuery_group", PA+":ExpressionTreeBuilder.visitExpression_group"])
p("C21","Source locations are valid offsets",
  "With enableSourceLocations every node of the returned tree has a location with 0 <= start < stop <= len(query); without it every location is None.",
  "every query, every node", "All queries, all nodes.",
  [PA+":SourceLocation.fromContext", PA+":ExpressionTreeBuilder"])
p("C22","query[start:stop] is the node's source text",
  "For every node, query[start:stop] starts and ends at token boundaries and tokenises to exactly the tokens of the construct the node was built from (e.g. for a literal segment or expression exactly the literal, its flags and quantifier).",
  "every query, every node", "All queries, all nodes.",
  [PA+":SourceLocation.fromContext"])
p("C23","Locations nest and are ordered",
  "A child's location lies within its parent's; locations of successive siblings are disjoint and in text order.",
  "every query, every node", "All queries, all nodes.",
  [PA+":SourceLocation.fromContext", PA+":ExpressionTreeBuilder"])
p("C24","enableSourceLocations changes locations only",
  "Turning source locations on or off changes neither acceptance nor error outcome nor anything of the tree but the location fields.",
  "every query, every configuration", "Relational property over pairs of runs.",
  [PA+":QueryParser.__init__", PA+":ExpressionTreeBuilder"])
p("C25","Parent links",
  "In the object graph returned by parse the root's parent is None, every other node's parent is the node that lists it as a child, and no node occurs twice. Over any sequence of successful calls, each with its own configuration: all nodes are new objects, the trees share none of them, and a tree returned earlier is not touched by later calls.",
  "every query", "Heap-shape invariant over all queries.",
  [PA+":QueryNode.__init__"])
p("C26","A QueryParser can be reused",
  "The result of parse on a reused QueryParser depends only on its configuration and the query, not on earlier calls (successful or failed).",
  "every sequence of calls", "All histories.",
  [PA+":QueryParser.parse"])
p("C27",".errors after parse",
  "After a successful parse .errors is empty; after a syntax failure it is a non-empty list of syntax-error details and the exception message quotes its first entry; earlier errors never linger.",
  "every call history", "All histories and queries.",
  [PA+":QueryParser.parse", PA+":ErrorListener"])
p("C28","get_child without class filter: exact behaviour",
  "get_child(idx) returns the idx-th child for 0 <= idx < child_count, None for a negative idx, for idx > child_count and on a node without children, and raises IndexError for idx = child_count > 0. (The documented contract \"None when out of bounds\" is false at idx = child_count and is refuted.)",
  "every node, every int index", "All integers.",
  [PA+":QueryNode.get_child"])
p("C29","get_child/get_first_child exact behaviour",
  "get_child(i) is the i-th child for 0<=i<child_count; with a class filter it is the i-th child of that class, else None, and never raises; get_first_child(clazz) is the first child of that class.",
  "every node, index and class", "All nodes and integers.",
  [PA+":QueryNode.get_child", PA+":QueryNode.get_first_child"])
p("C30","get_last_child: exact behaviour",
  "get_last_child() returns the last child or None; get_last_child(clazz) returns the last child if all children are of that class and None as soon as one child is of another class. (The documented contract \"last child of that class\" is false of this code and is refuted.)",
  "every node and class", "All child lists.",
  [PA+":QueryNode.get_last_child"])
p("C31","Accessors of QueryWithWithin, segments and groups",
  "On every tree returned by parse, get_within() on a QueryWithWithin returns its SimpleWithin node, and get_query/get_expression/get_content return the first child of a QueryWithWithin, segment or group; on a QueryWithWithin constructed without a within clause get_within() raises IndexError (although its signature says Optional).",
  "every constructor argument; every query", "All nodes.",
  [PA+":QueryWithWithin"])
p("C32","Expression predicates",
  "has_layer_identifier, has_operator and has_regex_flag hold exactly for the identifier, operator and flags of the expression, and raise TypeError exactly for None.",
  "every expression and argument", "All strings and flag sets.",
  [PA+":Expression.has_layer_identifier", PA+":Expression.has_operator", PA+":Expression.has_regex_flag"])
p("C33","Emptiness predicates and has_layer_qualifier: exact behaviour",
  "is_layer_qualifier_empty() is True exactly if there IS a qualifier, is_regex_flags_empty() is True exactly if there ARE flags, and has_layer_qualifier(q) is False for every q and raises TypeError for None. (The contracts their names state are false of this code and are refuted.)",
  "every expression and argument", "All expressions.",
  [PA+":Expression.is_layer_qualifier_empty", PA+":Expression.is_regex_flags_empty", PA+":Expression.has_layer_qualifier"])
p("C34","node_type identifies the node class, except for groups",
  "For every node, node_type is the enum member of its own class, except that a QueryGroup carries QUERY_SEGMENT; the members of the twelve classes are distinct; has_node_type(t) is True exactly for that member, and has_node_type(QUERY_GROUP) is False for every node.",
  "every node of every class", "All nodes.",
  [PA+":QueryGroup.__init__", PA+":QueryNodeType"])
p("C35","Default visitor traversal",
  "A visitor without overrides visits every node of a tree exactly once, parents before children, children left to right, and an overridden visit_Expression is called exactly for the expressions, in text order.",
  "every tree", "All trees.",
  [PA+":QueryVisitor.visit", PA+":QueryVisitor.visitChildren"])
p("C36","Which adapter methods are dispatched",
  "For every node class except QuerySegment and the ones whose dispatch name does not match the method defined in QueryVisitorAdapter, overriding the adapter method of that class makes it run exactly on the nodes of that class, in preorder; for these six (ExpressionWildcard, ExpressionGroup, ExpressionNot, ExpressionAnd, ExpressionOr, QueryGroup) the method is never called on any tree, and visit_QuerySegment runs on segments and on groups. (The contract \"every adapter method is dispatched for its class\" is refuted.)",
  "every node class and tree", "All trees.",
  [PA+":QueryVisitor.visit", PA+":QueryVisitorAdapter"])
p("C37","Collecting validator reports exactly the violations",
  "With raise_at_first_violation=False, errors (warnings) after validate are exactly the error (warning) findings of each Expression node, in text order, each once, whatever operators and groups surround it.",
  "every tree and validator configuration", "All trees.",
  [VA+":Validator.validate", VA+":FCSQLValidator.visit_Expression"])
p("C38","Raising validator raises at the first finding",
  "With raise_at_first_violation=True validate raises SpecificationValidationError exactly if the collecting validator would record an error (or, with warnings_as_errors, any finding), and message, node and fragment are those of the first such finding.",
  "every tree and configuration", "Relates two runs for all trees.",
  [VA+":Validator.validation_error", VA+":Validator.validation_warning"])
p("C39","validate and is_valid verdicts",
  "validate returns True iff there is no error (and, with warnings_as_errors, no warning); is_valid never raises and gives the same verdict in raising and collecting mode.",
  "every tree and configuration", "All trees and configurations.",
  [VA+":Validator.validate", VA+":Validator.is_valid"])
p("C40","A validator can be reused",
  "Errors, warnings and verdict of validate on a reused validator depend only on its configuration, the tree and the query string in force, not on earlier calls, including calls that raised.",
  "every call history", "All histories.",
  [VA+":Validator.validate"])
p("C41","parent_node during validation, and stack balance",
  "Inside visit_Expression of a validator, parent_node is the nearest ancestor of a class whose handler the dispatch reaches (segments, groups, sequences, disjunctions, QueryWithWithin), skipping And/Or/Not/ExpressionGroup ancestors, and None if there is none; the contract \"parent_node is the parent of the visited node\" is refuted; the internal stack is balanced again after every validate call that does not raise, and is left unbalanced by one that raises: what such a call adds is exactly the chain of ancestors with a handler of the node that the exception blames, nearest first, so that parent_node then shows the nearest of them; over any history of calls these leftovers add up and are never removed.",
  "every tree and call history", "All trees and histories, including raising ones.",
  [VA+":Validator.parent_node"])
p("C42","Layer checks decision table",
  "An expression is an error iff its identifier is not allowed (not in allowed_layer_identifiers if given, else neither known, nor legacy 'word', nor x- prefixed) or its qualifier is not allowed for the layer; 'word' and x- layers give a warning.",
  "every identifier, qualifier and configuration", "All strings and configurations.",
  [VA+":FCSQLValidator.visit_Expression"])
p("C43","is_likely_a_regex",
  "is_likely_a_regex(v) is True iff v contains one of the characters re.escape escapes other than the space; it is insensitive to spaces and to order.",
  "every string", "All strings.",
  [VA+":is_likely_a_regex"])
p("C44","POS tag warning",
  "A warning about the POS tag is given iff the layer is pos without qualifier and flags and the value is neither a UD17 tag nor contains a regex special character.",
  "every expression", "All strings.",
  [VA+":FCSQLValidator.visit_Expression"])
p("C45","validate(): boolean and list results agree",
  "validate(q) is False exactly if validate(q, return_errors=True) is a non-empty list, for the same warnings_as_errors; it raises only ValueError, and only for an unknown version.",
  "every string, version and flag combination", "Relational over all strings.",
  [IN+":validate"])
p("C46","validate() refines can_parse and is monotone in strictness",
  "validate(q) implies can_parse(q); validate(q, warnings_as_errors=True) implies validate(q).",
  "every string", "All strings.",
  [IN+":validate", IN+":can_parse"])
p("C47","Validation findings point at the offending expression",
  "Every finding reported by validate(q, return_errors=True) for a parsable q has a position that is the offending expression's location and a fragment that is exactly the query text of that expression.",
  "every string", "All strings.",
  [VA+":Validator.validation_error", IN+":validate"])
p("C48","Positions of syntax errors",
  "A grammatical error carries the start/stop offsets in the raw query of the offending token (or len(query), len(query) at the end; None for the empty query); a lexical error carries the column of the offending text on its own line, which is its offset in the query exactly if the query has no line break before it; and at that place no token can start. (The contract \"always an offset into the query\" is false after a line break and is refuted.)",
  "every string", "All strings, in particular multi-line ones.",
  [PA+":ErrorListener.syntaxError", PA+":SourceLocation.fromToken"])
p("C49","When antlr_parse raises",
  "antlr_parse(q) raises exactly if the tokens of q, ignoring unrecognised characters, are not in the grammar; it raises nothing but SyntaxError; parse reports a syntax error exactly if antlr_parse raises or q has a lexical error. (The contract \"antlr_parse raises whenever parse reports a syntax error\" is false of this code and is refuted.)",
  "every string", "All strings.",
  [IN+":antlr_parse"])
p("C50","str() shows distinct trees distinctly",
  "str() succeeds on every returned tree, and two returned trees none of whose regexes contains a double quote or backslash and whose default layer is a plain name have the same str() only if they are equal (location fields included or absent alike). With a quote or a backslash in a regex str() can coincide for different trees (refuted by examples).",
  "every pair of queries", "All pairs of trees.",
  [PA+":QueryNode.__str__", PA+":Expression.__str__"])
p("C51","Unicode normalisation",
  "Every regex in a returned tree is the chosen normal form of the decoded literal; with None it is the decoded literal itself; identifiers and qualifiers are never normalised; the choice of form never affects acceptance.",
  "every query, every normalisation function", "All strings; relational over configurations.",
  [PA+":ExpressionTreeBuilder.visitRegexp"])
p("C52","The ambiguous grammar is resolved deterministically",
  "For every token sequence in the grammar there is exactly one parse tree that the generated parser's least-viable-alternative prediction selects; it is a derivation of exactly these tokens, prediction always terminates, and the single-token lookahead tests and state numbers hard-coded in FCSParser.py select the same alternatives of the parser's table.",
  "every token sequence", "All token sequences; prediction uses unbounded lookahead.",
  [PP, PG])
p("C53","Constructor semantics",
  "QueryNode(children=cs, child=c) has the children cs followed by c, sets the parent of each of them to the new node, and changes no other node; Expression normalises blank qualifiers and empty flag sets to None.",
  "every heap of nodes and every argument list", "All object graphs.",
  [PA+":QueryNode.__init__", PA+":Expression.__init__"])
p("C54","The tables inside the generated lexer and parser are the grammar files",
  "The serialised tables of FCSLexer.py and FCSParser.py deserialise completely, and they accept what FCSLexer.g4 and FCSParser.g4 say: per lexer rule exactly its texts (white space alone carrying the skip action), in the order of the rules; per parser rule exactly its derivation trees. Every token is the longest text the lexer table reads at its place, by its first alternative; where a lexical error is reported the table reads nothing.",
  "every text, every tree, every query", "The tables are 4000 opaque numbers; agreement is about infinitely many texts and trees.",
  ["src/fcsql/FCSLexer.py:serializedATN", "src/fcsql/FCSParser.py:serializedATN", "src/fcsql/FCSLexer.g4", PG])
p("C55","Prediction in the parser's table is well defined",
  "For every state of the parser's table, every stack of pending calls and every rest of the input it is decidable whether the rest can be read to its end; so for every decision and context there is exactly one least alternative or none, and from the start the table reads exactly the token sequences of the grammar.",
  "every state, call stack and token sequence", "Infinitely many call stacks and inputs.",
  ["src/fcsql/FCSParser.py:serializedATN", PP])
p("C56","The documented reading, and exactly when it is returned",
  "Under the documented rules (! binds stronger than &, & stronger than |, n-ary operators, lone items stand for themselves) every token sequence has at most one reading; a query is accepted exactly if it lexes, has a reading and its numbers are within the integer limit; and parse returns the reading (without locations when they are disabled) exactly if no bracket level of the reading is one of the deviating ones of C19. The result is the reading exactly if the returned tree itself is stratified.",
  "every query and every parser setting", "All queries: unbounded nesting at all levels at once.",
  [PA+":QueryParser.parse", PA+":ExpressionTreeBuilder", PG])
p("C57","Round trip: trees can be written as queries and read back",
  "For every documented tree whose contents are expressible (names are identifiers, regular expressions normalised, flags consistent and not empty, repetition bounds valid) the query written from it (its words joined by spaces) is accepted; it is parsed back to the same tree, up to source locations, exactly if no bracket level is a deviating one; different trees are written differently. Conversely every documented tree that parse returns for any query is expressible and has no deviating level, so these trees are exactly the documented results.",
  "every tree, every query and every parser setting", "All trees of unbounded size, with arbitrary texts, names and numbers in them.",
  [PA+":QueryParser.parse", PA+":ExpressionTreeBuilder", PG, "src/fcsql/FCSLexer.g4"])
p("C58","Parts of a query are queries, and queries can be put together",
  "The text of every segment, group, sequence and disjunction in the tree of an accepted query (and of the query itself) is itself an accepted query, and parses to that part of the tree, its locations counted from its own start (a sequence of one item being that item). The text of every bracket level, of a segment or of a parenthesised expression, reads the same between square brackets of its own whatever stood around it, also when it is not read in the documented way. Conversely accepted queries can be joined: in parentheses, with any repetition, they form a group; one directly after the other a sequence of their items; with a vertical bar between them the disjunction of their alternatives; followed by a within clause the same query within that scope; all with the trees of the parts.",
  "every accepted query, every part of it and every pair of accepted queries", "Adaptive prediction may look arbitrarily far ahead, so the reading of a part could depend on unboundedly much context; all queries of unbounded size.",
  [PA+":QueryParser.parse", PA+":ExpressionTreeBuilder", PG, "src/fcsql/FCSLexer.g4"])
p("C59","One parser object, many calls at once, interrupted anywhere",
  "When any number of parse calls run on one QueryParser at the same time, interleaved in any way, and asynchronous exceptions (KeyboardInterrupt, MemoryError, RecursionError) hit any of them at any point: a tree that is returned is the tree of that query; a call that was not hit ends as it would alone; a call that was hit inside the try statement raises QueryParserException or the interrupt; no call waits for another; .errors is the list of the call that finished last (a prefix of its errors if that call was hit); the settings are untouched, so the parser can be used further. What is not guaranteed: that after a successful call .errors belongs to that call.",
  "every schedule, every interruption point, every number of calls and queries", "Thread schedules and interruption points cannot be enumerated or provoked by tests.",
  [PA+":QueryParser.parse", PA+":ErrorListener"])
p("C60","The low-level parse tree: accessors, listeners, visitors, names",
  "For every tree antlr_parse returns and every context in it: each child is returned by exactly one accessor of the context class; an accessor with an optional index returns the children of its kind in order, one without index the only such child or None; which accessors never return None is exactly what the grammar says. ParseTreeWalker calls every enter/exit method of a listener exactly for the contexts of its rule, outer before inner and inner before outer, visits the tokens in order and is properly nested; method names and tokens suffice to rebuild the tree. A visitor whose methods descend sees every context once; without visitQuery its value for the whole tree is that of the end-of-input token. Rule and token numbers, names, literal names, listener and visitor methods agree with each other and with the tables.",
  "every query, every tree, every context in it, every set of listener or visitor methods", "All trees; the 23 context classes with 88 accessors are generated code that the tests do not touch.",
  ["src/fcsql/__init__.py:antlr_parse", "src/fcsql/FCSParser.py", "src/fcsql/FCSParserListener.py", "src/fcsql/FCSParserVisitor.py", "src/fcsql/FCSLexer.py"])
p("C61","The runtime's adaptive prediction never misleads the generated parser",
  "ANTLR's prediction as the runtime performs it on the parser's table (simulate with unknown callers, on a conflict start again with the full call stack, stop as soon as one alternative is left or all conflicts resolve to the same one) returns, for every decision of the grammar, every chain of rule calls and every rest of the input, the least alternative from which the input can be read to its end, if there is one; what it returns is always an alternative of the decision; the check in front of decisions lets every token pass that can come next. Hence the generated parser run with them accepts exactly the queries of the grammar and builds the tree all other properties speak about. What is not guaranteed: that prediction fails when no alternative is viable.",
  "every decision, call chain, input and query", "Prediction looks arbitrarily far ahead and depends on call stacks of any depth.",
  ["src/fcsql/FCSParser.py:serializedATN", PP])
p("C62","Depth of results and of parse trees",
  "The tree returned by parse is at most one level deeper than the query has tokens (so at most |q| + 2 deep), and the parse tree at most five deeper; parse tree and result have the same depth up to a factor of three. The number of bracketed nodes on the deepest path is the bracket nesting of the query (one more for a bare literal), and the negations of the result are the `!` of the query. A result of the documented shape - in particular the result of any query without `!` - is at most 3 per bracket plus 1 per negation plus 5 levels deep, however long the query is; any result whatsoever is at most 3 per bracket plus 5 per negation plus 5 levels deep. Neither brackets alone nor the factor three can be improved: towers of `!` are arbitrarily deep without brackets, and three levels per bracket are reached.",
  "every environment, configuration and accepted query", "The recursion depth a consumer needs is a bound over all queries of all lengths.",
  ["src/fcsql/parser.py:QueryParser.parse", "src/fcsql/parser.py:ExpressionTreeBuilder", "src/fcsql/FCSParser.py"])
p("C63","A query means what its tokens mean",
  "If the tokens of an accepted query are replaced so that, position by position, they have the same kind and say the same - literals that stand for the same text, integers of the same value (within the digit limit), flag letters naming the same flags, words naming the same scope, the same layer names and qualifiers - then, provided the new text has no lexical errors, it is accepted too and yields the same tree up to source locations; with source locations off, the equal tree.",
  "every environment, configuration, accepted query and rewording of it", "It relates all pairs of queries of any size, across every construct and every nesting, not a list of rewordings.",
  ["src/fcsql/parser.py:QueryParser.parse", "src/fcsql/parser.py:ExpressionTreeBuilder", "src/fcsql/FCSParser.py", "src/fcsql/FCSLexer.py"])
p("C64","Parsing ends on every text, and complains exactly about texts outside the grammar",
  "With ANTLR's error recovery (skip, insert, resynchronise) in place of an assumption about it: on every text the generated parser ends, having read the whole input; it reports at least one syntax error if the tokens do not follow the grammar and none if they do; every reported error is about a token of the query and carries that token's line and column; there are at most as many syntax errors as tokens; the parser's error list contains all lexical errors and all syntax errors, each kind in its order, and nothing else; a syntax error is never listed before a lexical error to the left of its token; the exception of parse carries the message of the first of them (so that of the first lexical error, if one is to the left of the token the parser first complains about), the exception of antlr_parse 'line L:C message' of the first syntax error. (That the list as a whole is in the order of positions is false.) All properties of parse that are stated under a contract on error recovery hold for this error recovery.",
  "every text (grammatical or not), every environment and configuration", "Termination and error reporting on all malformed inputs; recovery takes the parser through states no valid input reaches.",
  ["src/fcsql/FCSParser.py", "src/fcsql/parser.py:QueryParser.parse", "src/fcsql/parser.py:ErrorListener.syntaxError", "src/fcsql/__init__.py:antlr_parse"])
p("C65","What the first syntax error says",
  "On a text outside the grammar, let t be the token at which the parser finds its first error: the tokens before t begin a valid query. Either the message is about t itself (its line and column) and reads \"mismatched input 't' expecting L\", \"extraneous input 't' expecting L\" or \"missing L at 't'\", where L lists token kinds in the order of their numbers, not including t's kind, such that after the tokens before t a valid query can go on with every kind in L; or it reads \"no viable alternative at input '...'\" with the text of the tokens from t to the token it is about, all tokens before which begin a valid query. Hence the first error is never about a token behind the first wrong one. Without lexical errors this message is that of the exception parse raises. antlr_parse raises with 'line L:C ' and this message on every text outside the grammar, L and C being line and column of the token the error is about. (That the token of the first error always is a wrong one is false.)",
  "every text outside the grammar, every environment and configuration", "The claim is about all malformed texts and all valid continuations of their beginnings.",
  ["src/fcsql/FCSParser.py", "src/fcsql/parser.py:QueryParser.parse", "src/fcsql/parser.py:ErrorListener.syntaxError", "src/fcsql/__init__.py:antlr_parse"])
p("C66","What the exception says about a well-formed but unusable query",
  'If a query has no lexical and no syntax error, parse either succeeds or raises QueryParserException with the message about the first token, reading from the left, that makes the query unusable: "invalid escape sequence: \\c" or "invalid codepoint: U+H" (the number in customary capital hexadecimal) for the first element of a literal that cannot be decoded; one of two messages about flags that exclude each other (both kinds of case sensitivity being reported before literal matching); "invalid integer: ..." for an integer with too many digits; "bad qualifier: min > max (a > b)" with both numbers in customary decimal for a range that ends before it begins. Exactly one message fits, whatever the configuration; without such a token the query is parsed. (Interpreters before 3.13 answer code points of 2^31 and more with "an unexpected exception occured while parsing".)',
  "every well-formed query, every environment and configuration", "Which of several defects is reported first, and with which text, depends on the traversal of arbitrarily nested queries.",
  [PA+":ExpressionTreeBuilder", PA+":ExpressionTreeBuilder.processRepetitionRange", PA+":ExpressionTreeBuilder.unescapeUnicode", PA+":QueryParser.parse"])
p("C67","Literals can be put into queries safely",
  'A program that builds queries from fixed parts and holes, each part dividing into tokens on its own and each hole filled with a literal: if the query is accepted with some literals in the holes it is accepted with any other literals in them, and the returned trees are equal except for the values of the expressions at the holes, which are the (normalised) texts the literals mean; all other values stay. In particular any texts can be inserted if they are quoted (backslashes and the quote escaped): they end up as values of expressions and nowhere else. Without quoting this is false.',
  "every template, every two fillings, every environment and configuration", "Injection safety is a statement about all texts an attacker may supply and all templates.",
  [PA+":QueryParser.parse", PA+":ExpressionTreeBuilder.visitRegexp", "src/fcsql/FCSLexer.g4:REGEXP"])
p("C68","Sizes of results and of parse trees",
  'Results are as large as queries, not larger: if parse returns a tree for a query of t tokens, the tree has at most 2t+1 nodes (and at most two per character and one more) and at least (t+1)/8; the tree returned by antlr_parse has, tokens included, at least t+1 and at most 5t+4 nodes. The bound 2t+1 is met by queries of every size.',
  "every accepted query", "A bound on the size of results has to hold for queries of any size.",
  [PA+":QueryParser.parse", PA+":ExpressionTreeBuilder", IN+":antlr_parse", PG])
p("C69","The displayed parse tree tells all, and source intervals are exact",
  'Two trees returned by antlr_parse have the same tree.toStringTree(FCSParser.ruleNames) (this is what the debug log of parse shows) exactly if they agree in all rules, token kinds and token texts, except that a tab, line feed or carriage return inside a literal looks like the escape \\t, \\n, \\r; token positions and layout do not show. Still, of two queries displayed in the same way, one is accepted by parse if the other is (and no lexical error keeps it from it), with the same result up to source locations. ctx.getSourceInterval() of every context names the first and the last of its tokens, the end of the query not counted; ctx.getText() is the text of these tokens (and <EOF> at the end, for the whole query only).',
  "every pair of queries, every context of their trees, every environment and configuration", "That a textual display is unambiguous, with tokens that contain blanks and brackets, is a claim about all pairs of trees.",
  [PA+":QueryParser.parse", IN+":antlr_parse", "examples/run_parse.py:parse_raw", PG])
p("C70","Layout moves source locations with their tokens, and does nothing else",
  'White space put into an accepted query at a token boundary i (k characters) gives the very same result, in which every source location is moved: a start at or behind i and an (exclusive) end behind i are moved by k, the others stay. White space in front moves all locations, white space behind gives the identical result. More generally, if the tokens of two queries say the same one by one, then each node is located, in the second result, from the start of the token that corresponds to the token where it starts in the first, to the end of the token that corresponds to the one where it ends.',
  "every accepted query, every token boundary, every amount and kind of white space; every pair of queries whose tokens say the same; every environment and configuration", "Locations after re-formatting depend on every token position and every node; a test can only look at a few layouts.",
  [PA+":SourceLocation", PA+":SourceLocation.fromContext", PA+":QueryParser.parse", PG])
p("C71","The tables shared by all lexers and parsers never change a result",
  'All FCSLexer and FCSParser objects of a process fill and use the same DFA objects (decisionsToDFA), without locks. Still, whatever was parsed before, whatever other threads parse at the same time (interleaved at single reads and writes of the tables, with the races this allows: states entered twice, edge lists replaced), and whatever calls were abandoned in the middle of such an update by an exception: a call of QueryParser.parse that ends returns or raises exactly what it does in a fresh process, with the same .errors; no call fails because of what it finds in the tables; and a call ends after a number of its own steps that depends only on its query, so no other call can block it.',
  "every history of the process: every number of calls, every query and configuration, every interleaving, every point at which calls are killed", "Cache state depends on everything parsed before, and races show only in particular interleavings.",
  ["src/fcsql/FCSLexer.py:FCSLexer.decisionsToDFA", "src/fcsql/FCSParser.py:FCSParser.decisionsToDFA", "src/fcsql/FCSLexer.py:FCSLexer.__init__", "src/fcsql/FCSParser.py:FCSParser.__init__", PA+":QueryParser.parse"])
p("C72","Validation does not depend on layout and is put together from its parts",
  'validate gives the same verdict for a query (accepted or not) and for the query with white space put in between tokens, and for two queries whose tokens say the same; with return_errors=True it lists the same complaints (message and type) in the same order, about the corresponding text. For accepted queries, the verdict on q1|q2 and on q1 q2 is the conjunction of the verdicts, the verdict on (q) with a quantifier and on q within s is that on q; the lists are those of the parts (errors, then warnings), with the same messages, types and fragments and positions moved to where the part stands. What validate complains about in the text of a part of a query (a segment, group, sequence, alternative) it complains about in the whole, so every part of a valid query is valid.',
  "all queries, token boundaries, white space, parts and compositions, for warnings_as_errors on and off", "Infinitely many layouts and compositions of queries.",
  ["src/fcsql/__init__.py:validate", "src/fcsql/validation.py:FCSQLValidator", PA+":QueryParser.parse"])
p("C73","Parsing never blows up: linearly many predictions, quadratically many steps",
  'For every text of n characters, query or not, a call of QueryParser.parse simulates the DFAs (matching a token in the lexer, predicting an alternative in the parser) at most 2500*(n+2) times: no text, and no way of recovering from errors in it, makes the parser predict again and again at the same place. Each simulation has at most the n characters, or the n+1 tokens, in front of it; so the call is over after at most (150*(n+2))^2 accesses to the shared DFA tables of its own, whatever they hold and whatever other threads do meanwhile.',
  "all texts (valid or not), lengths, configurations, states of the shared tables, interleavings", "A bound on work for every text of every length: tests measure a few inputs.",
  [PP+":FCSParser", "src/fcsql/FCSLexer.py:FCSLexer", PA+":QueryParser.parse"])
p("C74","Every query can be written in printable ASCII",
  'For every accepted query there is a query made of the characters from space to tilde only that is accepted too, with the same tree up to source locations (the identical tree if these are off). Hence no text is out of reach: for every text there is a printable ASCII query that parses to the segment searching for this text in the default layer.',
  "every accepted query, every text, every environment and configuration", "For every text over all of Unicode; a test tries a few non-ASCII literals.",
  [PA+":QueryParser.parse", PA+":ExpressionTreeBuilder", LG])
p("C75","Two queries have the same tree exactly if they are wordings of each other",
  'For two accepted queries: the trees agree (source locations aside) if and only if the two token sequences are wordings of each other: a query is repeated wording by wording, where a literal may be spelt with other quotes or escapes and its flags in any order, a bare literal may be written as a bracketed comparison of the default layer with the default operator, a quantifier as any other one with the same bounds (none, {1} and {1,1}; ? and {0,1}; ...), operators and keywords in any spelling of their token, and everything else (parentheses, alternatives, groups, the order of segments) is the same. Nothing else is identified: for instance redundant parentheses between brackets, and a group repeated once, remain visible. Moreover a text that the lexer reads without error (and whose integers are convertible) and that is a wording of an accepted query is itself accepted, with that tree. fcsql.validate gives all wordings of a query the same verdict and, with return_errors, the same messages in the same order (position and fragment follow the wording). For queries whose tree is the documented reading (and an idempotent normalisation) the text that C57 writes for the tree is a wording of the query, and two such queries are wordings of each other exactly if the same text is written for both.',
  "every pair of texts, every environment and configuration", "The equivalence relates all pairs of queries; a test compares a few.",
  [PA+":QueryParser.parse", PA+":ExpressionTreeBuilder", VA+":FCSQLValidator", IN+":validate"])
p("C76","The interpreter can only change normalised values and refuse long repetition bounds",
  'For a fixed query and parser settings, two interpreter installations (Python version, its Unicode tables, its limit on the digits of int(), the behaviour of chr on huge numbers, and whatever the ANTLR runtime reports on text outside the grammar) can differ in two ways only. A query accepted on one is accepted on the other unless one of its repetition bounds has more digits than the other converts; and if both accept, the trees are the same, source locations, flags, bounds and structure included, except that where one holds its own Unicode normalisation of a text the other holds its normalisation of the same text. If the normalisations agree (or none is configured), the trees are equal; and fcsql.validate then gives a query both accept the same verdict and the same complaints.',
  "every query, every pair of interpreters, every configuration", "A test runs on the interpreters installed; the claim is about all of them.",
  [PA+":QueryParser.parse", PA+":ExpressionTreeBuilder"])
p("C77","The shape of a tree depends on the kinds of the tokens only",
  'If two accepted queries consist of tokens of the same kinds, one by one, then their trees have the same shape: node by node the same class, the same operator and the same number of children, and every node covers the corresponding tokens (where locations are enabled, each location of the second tree is obtained from that of the first by taking token starts to the starts, and token ends to the ends, of the corresponding tokens). So names, literal contents, flags, repetition bounds, spelling of operators and keywords, layout and the interpreter never influence the structure. Likewise acceptance: a text that the lexer reads without error and whose tokens have the kinds of an accepted query is accepted if and only if the texts of its literals, flags and repetition bounds are usable; and antlr_parse succeeds on one of two such texts exactly if on the other, with parse trees that are the same rule by rule.',
  "every pair of texts, every configuration and pair of interpreters", "Templates filled with user input rely on it for every input; a test fills in a few.",
  [PA+":QueryParser.parse", PA+":ExpressionTreeBuilder", IN+":antlr_parse"])
out = os.path.join(os.path.dirname(__file__), "..", "properties.jsonl")
with open(out, "w") as f:
    for x in P: f.write(json.dumps(x, ensure_ascii=False) + "\n")
print(len(P))
