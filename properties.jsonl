{"id": "C01", "title": "parse() either returns a tree or raises QueryParserException", "statement": "For every query string, QueryParser.parse returns a query node or raises QueryParserException; no other exception (IndexError from unescaping, OverflowError from chr, AssertionError from a missing child, ...) leaks; can_parse(q) is True exactly when parse(q) returns.", "quantifier": "every Python str, every parser configuration, every behaviour of the Unicode-normalisation and error-recovery code", "why_tests_cant": "A test samples strings; the leak-freedom claim ranges over all strings, including those reaching rarely exercised error branches of the tree builder.", "anchors": ["src/fcsql/parser.py:QueryParser.parse", "src/fcsql/parser.py:ExpressionTreeBuilder", "src/fcsql/__init__.py:can_parse"]}
{"id": "C02", "title": "Exact acceptance condition", "statement": "parse(q) succeeds if and only if: q tokenises without lexical error, the token sequence belongs to the grammar FCSParser.g4, every quoted literal contains only decodable escapes (not \\} or \\], and \\U at most 10FFFF), every flag string is a consistent combination, and every {m,n} has m <= n with integers within the interpreter's digit limit.", "quantifier": "every Python str and every parser configuration", "why_tests_cant": "An iff over all strings cannot be sampled; tests only show individual accepted/rejected strings.", "anchors": ["src/fcsql/parser.py:QueryParser.parse", "src/fcsql/parser.py:ExpressionTreeBuilder", "src/fcsql/FCSParser.g4", "src/fcsql/FCSLexer.g4"]}
{"id": "C03", "title": "Tokenisation tiles the query", "statement": "Tokens, skipped whitespace and lexical-error fragments are contiguous, in order and without overlap or gap: concatenating their texts gives back the query, each token's text is query[start:stop+1], and the tokeniser always terminates.", "quantifier": "every Python str", "why_tests_cant": "Holds for every string, including ill-formed ones.", "anchors": ["src/fcsql/FCSLexer.g4", "src/fcsql/FCSLexer.py", "src/fcsql/parser.py:QueryParser.parse"]}
{"id": "C04", "title": "Longest match, first rule wins", "statement": "Each token is the longest prefix of the remaining input that any lexer rule matches, typed by the first such rule; in particular 'within', the scope words and flag strings are never reported as plain IDENTIFIER, and no token is ever of the QUOTED_STRING type.", "quantifier": "every Python str and every token position", "why_tests_cant": "Quantifies over all prefixes and all rules.", "anchors": ["src/fcsql/FCSLexer.g4"]}
{"id": "C05", "title": "Whitespace between tokens is irrelevant", "statement": "Inserting white space at any token boundary (including start and end) of a query changes neither acceptance nor the resulting tree, apart from source locations.", "quantifier": "every query without lexical errors, every boundary, every white-space string of the grammar's WS class", "why_tests_cant": "Universal over queries and insertion points.", "anchors": ["src/fcsql/FCSLexer.g4:Space", "src/fcsql/parser.py:QueryParser.parse"]}
{"id": "C06", "title": "Any text can be searched literally (quoting round-trip)", "statement": "For every text s, the query consisting of s in double (or single) quotes, with backslashes and that quote character escaped by a backslash, parses to one segment (min=max=1) with one expression on the default layer and operator whose regex is the normalised s, without qualifier and flags.", "quantifier": "every Python str s", "why_tests_cant": "Round-trip law over all strings of all lengths.", "anchors": ["src/fcsql/parser.py:ExpressionTreeBuilder.visitRegexp", "src/fcsql/parser.py:ExpressionTreeBuilder.unescapeString", "src/fcsql/parser.py:ExpressionTreeBuilder.stripQuotes", "src/fcsql/FCSLexer.g4:QUOTED_STRING"]}
{"id": "C07", "title": "Escape decoding follows the escape table", "statement": "For every literal the tokeniser accepts, the regex value before normalisation is the concatenation of the decodings of its elements: plain characters and \\\\ \\\" \\' stand for themselves, \\n \\t for newline and tab, regex metacharacter escapes keep their backslash, \\xHH \\uHHHH \\UHHHHHHHH for the code point; decoding never runs past the end of the literal.", "quantifier": "every literal accepted by the lexer", "why_tests_cant": "All literals of any length and nesting of escapes.", "anchors": ["src/fcsql/parser.py:ExpressionTreeBuilder.unescapeString", "src/fcsql/parser.py:ExpressionTreeBuilder.unescapeUnicode", "src/fcsql/parser.py:ExpressionTreeBuilder.parseHexChar"]}
{"id": "C08", "title": "Which grammar-legal escapes are usable", "statement": "A query that tokenises and conforms to the grammar, with consistent flags, ordered repetition bounds and integers within the digit limit, parses exactly if none of its literals contains one of the undecodable escapes: \\} and \\] (which the lexer grammar lists but the tree builder does not know) and \\U above 10FFFF. (The stronger contract \"every escape the lexer grammar lists is usable\" is false of this code and is refuted.)", "quantifier": "every query in the grammar", "why_tests_cant": "Universal; the shipped tests only try some escapes.", "anchors": ["src/fcsql/FCSLexer.g4:ESCAPED_CHAR", "src/fcsql/parser.py:ExpressionTreeBuilder.unescapeString"]}
{"id": "C09", "title": "Repetition quantifiers mean what they say", "statement": "* + ? {n} {n,} {,m} {n,m} give (0,unbounded) (1,unbounded) (0,1) (n,n) (n,unbounded) (0,m) (n,m), no quantifier gives (1,1), for segments and groups alike and for all integers n, m (decimal value, leading zeros allowed).", "quantifier": "every quantifier over all natural numbers", "why_tests_cant": "Unbounded integers.", "anchors": ["src/fcsql/parser.py:ExpressionTreeBuilder.processRepetition", "src/fcsql/parser.py:ExpressionTreeBuilder.processRepetitionRange"]}
{"id": "C10", "title": "Occurrence bounds of parsed nodes are sane", "statement": "In every tree returned by parse, every segment and group has min_occurs >= 0 and max_occurs either unbounded (-1) or >= min_occurs; queries with min > max are rejected.", "quantifier": "every query, every node of its tree", "why_tests_cant": "All queries and nodes.", "anchors": ["src/fcsql/parser.py:ExpressionTreeBuilder.processRepetitionRange", "src/fcsql/parser.py:QuerySegment", "src/fcsql/parser.py:QueryGroup"]}
{"id": "C11", "title": "Regex flags decode to a set", "statement": "The flag string after / is decoded to the set {i,c -> case-insensitive; I,C -> case-sensitive; l -> literal; d -> ignore-diacritics}, independent of order and repetition; it is rejected exactly if case-insensitive and case-sensitive occur together or literal occurs with any other; no flags gives regex_flags None.", "quantifier": "every flag string over the lexer's flag alphabet, of any length", "why_tests_cant": "Unbounded strings, all permutations and repetitions.", "anchors": ["src/fcsql/parser.py:ExpressionTreeBuilder.visitRegexp", "src/fcsql/parser.py:Expression"]}
{"id": "C12", "title": "Parser defaults apply to bare literals only", "statement": "A bare quoted literal yields an expression with the parser's default_identifier, default_operator and no qualifier; an expression in brackets never depends on default_identifier/default_operator.", "quantifier": "every query and every pair of parser configurations", "why_tests_cant": "Relational property over pairs of runs.", "anchors": ["src/fcsql/parser.py:ExpressionTreeBuilder.visitQuery_implicit", "src/fcsql/parser.py:QueryParser.__init__"]}
{"id": "C13", "title": "Attributes are taken verbatim", "statement": "For every bracketed basic expression [q:i OP lit] the node carries exactly qualifier q (None if absent), identifier i (also when spelled like a keyword, scope word or flag string) and EQUALS for '=', NOT_EQUALS for '!='.", "quantifier": "every identifier spelling the lexer accepts, every operator", "why_tests_cant": "All identifiers.", "anchors": ["src/fcsql/parser.py:ExpressionTreeBuilder.visitAttribute", "src/fcsql/parser.py:ExpressionTreeBuilder.visitExpression_basic", "src/fcsql/FCSParser.g4:attribute"]}
{"id": "C14", "title": "Within clause", "statement": "The root is a QueryWithWithin with children [query, SimpleWithin(scope)] exactly if the query ends in 'within <scope>'; the scope follows the documented word/abbreviation table; no inner node is a QueryWithWithin or SimpleWithin.", "quantifier": "every query", "why_tests_cant": "All queries and all inner nodes.", "anchors": ["src/fcsql/parser.py:ExpressionTreeBuilder.visitQuery", "src/fcsql/parser.py:ExpressionTreeBuilder.visitWithin_part_simple"]}
{"id": "C15", "title": "Shape of returned trees", "statement": "Every tree returned by parse is well-shaped: And/Or/Disjunction nodes have at least 2 children, Sequence at least 1, Segment/Group/Not/ExpressionGroup exactly 1, expressions and wildcards none; sequences contain only segments and groups; segments contain expression-level nodes; groups contain a sequence or disjunction.", "quantifier": "every query, every node of its tree", "why_tests_cant": "Structural invariant over all trees.", "anchors": ["src/fcsql/parser.py:ExpressionTreeBuilder", "src/fcsql/FCSParser.g4"]}
{"id": "C16", "title": "Query-level structure is determined by | and juxtaposition", "statement": "Outside brackets the tree is exactly: one item -> that segment/group; several juxtaposed items without | -> one flat sequence in order; items separated by | -> one flat disjunction whose operands are a segment for a single bare item and a sequence otherwise (a lone parenthesised group operand is wrapped in a one-element sequence).", "quantifier": "every query", "why_tests_cant": "The grammar is ambiguous here; the claim is about which of the possible trees is returned for all inputs.", "anchors": ["src/fcsql/FCSParser.g4:main_query", "src/fcsql/FCSParser.g4:query_disjunction", "src/fcsql/FCSParser.g4:query_sequence", "src/fcsql/FCSParser.py"]}
{"id": "C17", "title": "Nothing lost, duplicated or reordered", "statement": "The expression and wildcard leaves of the returned tree, read left to right, correspond one-to-one and in order to the literals and empty brackets of the query text.", "quantifier": "every query", "why_tests_cant": "All queries; whatever the ambiguity resolution.", "anchors": ["src/fcsql/parser.py:ExpressionTreeBuilder", "src/fcsql/FCSParser.g4"]}
{"id": "C18", "title": "NOT over AND over OR does not always hold (documented precedence refuted)", "statement": "The precedence the grammar documents (NOT binds strongest, then AND, then OR) is not what the parser does on every query: e.g. in [a='x' & !b='y' | c='z' | d='w'] the AND takes a bare OR as operand. Whatever the query, though, an AND never has an AND operand, an OR never an OR operand, and the first operand of an AND is never a bare OR; and any bare OR operand of an AND starts with a negation (its leftmost operand is a NOT).", "quantifier": "every query", "why_tests_cant": "Ambiguous grammar resolved by lookahead; a few samples look right while longer inputs are not.", "anchors": ["src/fcsql/FCSParser.g4:expression", "src/fcsql/FCSParser.g4:expression_or", "src/fcsql/FCSParser.g4:expression_and", "src/fcsql/FCSParser.g4:expression_not"]}
{"id": "C19", "title": "Exactly when the tree is the textbook precedence tree", "statement": "Let a nesting level (inside brackets or parentheses) be T1 | ... | Tk, each Ti factors joined by &, each factor an atom with any number of ! in front. The tree of the level is the textbook precedence tree (NOT over AND over OR, flat n-ary operators, explicit groups kept) if and only if there is no i < k such that (a) a non-first factor of Ti is negated and i >= 2 or k >= 3, or (b) Ti is a single negated factor and some Tj, j > i, has at least two factors and i >= 2 or j < k. In particular it always is with at most one | on a level, and on levels without negation.", "quantifier": "every expression of any size and nesting satisfying the condition", "why_tests_cant": "Unbounded expressions, any nesting.", "anchors": ["src/fcsql/FCSParser.g4:expression_or", "src/fcsql/FCSParser.g4:expression_and", "src/fcsql/FCSParser.g4:expression_not"]}
{"id": "C20", "title": "Parentheses are preserved", "statement": "Every parenthesis pair of the query text yields exactly one group node (QueryGroup outside brackets, ExpressionGroup inside) and vice versa, so parentheses are never dropped or invented.", "quantifier": "every query", "why_tests_cant": "All queries and nestings.", "anchors": ["src/fcsql/parser.py:ExpressionTreeBuilder.visitQuery_group", "src/fcsql/parser.py:ExpressionTreeBuilder.visitExpression_group"]}
{"id": "C21", "title": "Source locations are valid offsets", "statement": "With enableSourceLocations every node of the returned tree has a location with 0 <= start < stop <= len(query); without it every location is None.", "quantifier": "every query, every node", "why_tests_cant": "All queries, all nodes.", "anchors": ["src/fcsql/parser.py:SourceLocation.fromContext", "src/fcsql/parser.py:ExpressionTreeBuilder"]}
{"id": "C22", "title": "query[start:stop] is the node's source text", "statement": "For every node, query[start:stop] starts and ends at token boundaries and tokenises to exactly the tokens of the construct the node was built from (e.g. for a literal segment or expression exactly the literal, its flags and quantifier).", "quantifier": "every query, every node", "why_tests_cant": "All queries, all nodes.", "anchors": ["src/fcsql/parser.py:SourceLocation.fromContext"]}
{"id": "C23", "title": "Locations nest and are ordered", "statement": "A child's location lies within its parent's; locations of successive siblings are disjoint and in text order.", "quantifier": "every query, every node", "why_tests_cant": "All queries, all nodes.", "anchors": ["src/fcsql/parser.py:SourceLocation.fromContext", "src/fcsql/parser.py:ExpressionTreeBuilder"]}
{"id": "C24", "title": "enableSourceLocations changes locations only", "statement": "Turning source locations on or off changes neither acceptance nor error outcome nor anything of the tree but the location fields.", "quantifier": "every query, every configuration", "why_tests_cant": "Relational property over pairs of runs.", "anchors": ["src/fcsql/parser.py:QueryParser.__init__", "src/fcsql/parser.py:ExpressionTreeBuilder"]}
{"id": "C25", "title": "Parent links", "statement": "In the object graph returned by parse the root's parent is None, every other node's parent is the node that lists it as a child, and no node occurs twice. Over any sequence of successful calls, each with its own configuration: all nodes are new objects, the trees share none of them, and a tree returned earlier is not touched by later calls.", "quantifier": "every query", "why_tests_cant": "Heap-shape invariant over all queries.", "anchors": ["src/fcsql/parser.py:QueryNode.__init__"]}
{"id": "C26", "title": "A QueryParser can be reused", "statement": "The result of parse on a reused QueryParser depends only on its configuration and the query, not on earlier calls (successful or failed).", "quantifier": "every sequence of calls", "why_tests_cant": "All histories.", "anchors": ["src/fcsql/parser.py:QueryParser.parse"]}
{"id": "C27", "title": ".errors after parse", "statement": "After a successful parse .errors is empty; after a syntax failure it is a non-empty list of syntax-error details and the exception message quotes its first entry; earlier errors never linger.", "quantifier": "every call history", "why_tests_cant": "All histories and queries.", "anchors": ["src/fcsql/parser.py:QueryParser.parse", "src/fcsql/parser.py:ErrorListener"]}
{"id": "C28", "title": "get_child without class filter: exact behaviour", "statement": "get_child(idx) returns the idx-th child for 0 <= idx < child_count, None for a negative idx, for idx > child_count and on a node without children, and raises IndexError for idx = child_count > 0. (The documented contract \"None when out of bounds\" is false at idx = child_count and is refuted.)", "quantifier": "every node, every int index", "why_tests_cant": "All integers.", "anchors": ["src/fcsql/parser.py:QueryNode.get_child"]}
{"id": "C29", "title": "get_child/get_first_child exact behaviour", "statement": "get_child(i) is the i-th child for 0<=i<child_count; with a class filter it is the i-th child of that class, else None, and never raises; get_first_child(clazz) is the first child of that class.", "quantifier": "every node, index and class", "why_tests_cant": "All nodes and integers.", "anchors": ["src/fcsql/parser.py:QueryNode.get_child", "src/fcsql/parser.py:QueryNode.get_first_child"]}
{"id": "C30", "title": "get_last_child: exact behaviour", "statement": "get_last_child() returns the last child or None; get_last_child(clazz) returns the last child if all children are of that class and None as soon as one child is of another class. (The documented contract \"last child of that class\" is false of this code and is refuted.)", "quantifier": "every node and class", "why_tests_cant": "All child lists.", "anchors": ["src/fcsql/parser.py:QueryNode.get_last_child"]}
{"id": "C31", "title": "Accessors of QueryWithWithin, segments and groups", "statement": "On every tree returned by parse, get_within() on a QueryWithWithin returns its SimpleWithin node, and get_query/get_expression/get_content return the first child of a QueryWithWithin, segment or group; on a QueryWithWithin constructed without a within clause get_within() raises IndexError (although its signature says Optional).", "quantifier": "every constructor argument; every query", "why_tests_cant": "All nodes.", "anchors": ["src/fcsql/parser.py:QueryWithWithin"]}
{"id": "C32", "title": "Expression predicates", "statement": "has_layer_identifier, has_operator and has_regex_flag hold exactly for the identifier, operator and flags of the expression, and raise TypeError exactly for None.", "quantifier": "every expression and argument", "why_tests_cant": "All strings and flag sets.", "anchors": ["src/fcsql/parser.py:Expression.has_layer_identifier", "src/fcsql/parser.py:Expression.has_operator", "src/fcsql/parser.py:Expression.has_regex_flag"]}
{"id": "C33", "title": "Emptiness predicates and has_layer_qualifier: exact behaviour", "statement": "is_layer_qualifier_empty() is True exactly if there IS a qualifier, is_regex_flags_empty() is True exactly if there ARE flags, and has_layer_qualifier(q) is False for every q and raises TypeError for None. (The contracts their names state are false of this code and are refuted.)", "quantifier": "every expression and argument", "why_tests_cant": "All expressions.", "anchors": ["src/fcsql/parser.py:Expression.is_layer_qualifier_empty", "src/fcsql/parser.py:Expression.is_regex_flags_empty", "src/fcsql/parser.py:Expression.has_layer_qualifier"]}
{"id": "C34", "title": "node_type identifies the node class, except for groups", "statement": "For every node, node_type is the enum member of its own class, except that a QueryGroup carries QUERY_SEGMENT; the members of the twelve classes are distinct; has_node_type(t) is True exactly for that member, and has_node_type(QUERY_GROUP) is False for every node.", "quantifier": "every node of every class", "why_tests_cant": "All nodes.", "anchors": ["src/fcsql/parser.py:QueryGroup.__init__", "src/fcsql/parser.py:QueryNodeType"]}
{"id": "C35", "title": "Default visitor traversal", "statement": "A visitor without overrides visits every node of a tree exactly once, parents before children, children left to right, and an overridden visit_Expression is called exactly for the expressions, in text order.", "quantifier": "every tree", "why_tests_cant": "All trees.", "anchors": ["src/fcsql/parser.py:QueryVisitor.visit", "src/fcsql/parser.py:QueryVisitor.visitChildren"]}
{"id": "C36", "title": "Which adapter methods are dispatched", "statement": "For every node class except QuerySegment and the ones whose dispatch name does not match the method defined in QueryVisitorAdapter, overriding the adapter method of that class makes it run exactly on the nodes of that class, in preorder; for these six (ExpressionWildcard, ExpressionGroup, ExpressionNot, ExpressionAnd, ExpressionOr, QueryGroup) the method is never called on any tree, and visit_QuerySegment runs on segments and on groups. (The contract \"every adapter method is dispatched for its class\" is refuted.)", "quantifier": "every node class and tree", "why_tests_cant": "All trees.", "anchors": ["src/fcsql/parser.py:QueryVisitor.visit", "src/fcsql/parser.py:QueryVisitorAdapter"]}
{"id": "C37", "title": "Collecting validator reports exactly the violations", "statement": "With raise_at_first_violation=False, errors (warnings) after validate are exactly the error (warning) findings of each Expression node, in text order, each once, whatever operators and groups surround it.", "quantifier": "every tree and validator configuration", "why_tests_cant": "All trees.", "anchors": ["src/fcsql/validation.py:Validator.validate", "src/fcsql/validation.py:FCSQLValidator.visit_Expression"]}
{"id": "C38", "title": "Raising validator raises at the first finding", "statement": "With raise_at_first_violation=True validate raises SpecificationValidationError exactly if the collecting validator would record an error (or, with warnings_as_errors, any finding), and message, node and fragment are those of the first such finding.", "quantifier": "every tree and configuration", "why_tests_cant": "Relates two runs for all trees.", "anchors": ["src/fcsql/validation.py:Validator.validation_error", "src/fcsql/validation.py:Validator.validation_warning"]}
{"id": "C39", "title": "validate and is_valid verdicts", "statement": "validate returns True iff there is no error (and, with warnings_as_errors, no warning); is_valid never raises and gives the same verdict in raising and collecting mode.", "quantifier": "every tree and configuration", "why_tests_cant": "All trees and configurations.", "anchors": ["src/fcsql/validation.py:Validator.validate", "src/fcsql/validation.py:Validator.is_valid"]}
{"id": "C40", "title": "A validator can be reused", "statement": "Errors, warnings and verdict of validate on a reused validator depend only on its configuration, the tree and the query string in force, not on earlier calls, including calls that raised.", "quantifier": "every call history", "why_tests_cant": "All histories.", "anchors": ["src/fcsql/validation.py:Validator.validate"]}
{"id": "C41", "title": "parent_node during validation, and stack balance", "statement": "Inside visit_Expression of a validator, parent_node is the nearest ancestor of a class whose handler the dispatch reaches (segments, groups, sequences, disjunctions, QueryWithWithin), skipping And/Or/Not/ExpressionGroup ancestors, and None if there is none; the contract \"parent_node is the parent of the visited node\" is refuted; the internal stack is balanced again after every validate call that does not raise, and is left unbalanced by one that raises: what such a call adds is exactly the chain of ancestors with a handler of the node that the exception blames, nearest first, so that parent_node then shows the nearest of them; over any history of calls these leftovers add up and are never removed.", "quantifier": "every tree and call history", "why_tests_cant": "All trees and histories, including raising ones.", "anchors": ["src/fcsql/validation.py:Validator.parent_node"]}
{"id": "C42", "title": "Layer checks decision table", "statement": "An expression is an error iff its identifier is not allowed (not in allowed_layer_identifiers if given, else neither known, nor legacy 'word', nor x- prefixed) or its qualifier is not allowed for the layer; 'word' and x- layers give a warning.", "quantifier": "every identifier, qualifier and configuration", "why_tests_cant": "All strings and configurations.", "anchors": ["src/fcsql/validation.py:FCSQLValidator.visit_Expression"]}
{"id": "C43", "title": "is_likely_a_regex", "statement": "is_likely_a_regex(v) is True iff v contains one of the characters re.escape escapes other than the space; it is insensitive to spaces and to order.", "quantifier": "every string", "why_tests_cant": "All strings.", "anchors": ["src/fcsql/validation.py:is_likely_a_regex"]}
{"id": "C44", "title": "POS tag warning", "statement": "A warning about the POS tag is given iff the layer is pos without qualifier and flags and the value is neither a UD17 tag nor contains a regex special character.", "quantifier": "every expression", "why_tests_cant": "All strings.", "anchors": ["src/fcsql/validation.py:FCSQLValidator.visit_Expression"]}
{"id": "C45", "title": "validate(): boolean and list results agree", "statement": "validate(q) is False exactly if validate(q, return_errors=True) is a non-empty list, for the same warnings_as_errors; it raises only ValueError, and only for an unknown version.", "quantifier": "every string, version and flag combination", "why_tests_cant": "Relational over all strings.", "anchors": ["src/fcsql/__init__.py:validate"]}
{"id": "C46", "title": "validate() refines can_parse and is monotone in strictness", "statement": "validate(q) implies can_parse(q); validate(q, warnings_as_errors=True) implies validate(q).", "quantifier": "every string", "why_tests_cant": "All strings.", "anchors": ["src/fcsql/__init__.py:validate", "src/fcsql/__init__.py:can_parse"]}
{"id": "C47", "title": "Validation findings point at the offending expression", "statement": "Every finding reported by validate(q, return_errors=True) for a parsable q has a position that is the offending expression's location and a fragment that is exactly the query text of that expression.", "quantifier": "every string", "why_tests_cant": "All strings.", "anchors": ["src/fcsql/validation.py:Validator.validation_error", "src/fcsql/__init__.py:validate"]}
{"id": "C48", "title": "Positions of syntax errors", "statement": "A grammatical error carries the start/stop offsets in the raw query of the offending token (or len(query), len(query) at the end; None for the empty query); a lexical error carries the column of the offending text on its own line, which is its offset in the query exactly if the query has no line break before it; and at that place no token can start. (The contract \"always an offset into the query\" is false after a line break and is refuted.)", "quantifier": "every string", "why_tests_cant": "All strings, in particular multi-line ones.", "anchors": ["src/fcsql/parser.py:ErrorListener.syntaxError", "src/fcsql/parser.py:SourceLocation.fromToken"]}
{"id": "C49", "title": "When antlr_parse raises", "statement": "antlr_parse(q) raises exactly if the tokens of q, ignoring unrecognised characters, are not in the grammar; it raises nothing but SyntaxError; parse reports a syntax error exactly if antlr_parse raises or q has a lexical error. (The contract \"antlr_parse raises whenever parse reports a syntax error\" is false of this code and is refuted.)", "quantifier": "every string", "why_tests_cant": "All strings.", "anchors": ["src/fcsql/__init__.py:antlr_parse"]}
{"id": "C50", "title": "str() shows distinct trees distinctly", "statement": "str() succeeds on every returned tree, and two returned trees none of whose regexes contains a double quote or backslash and whose default layer is a plain name have the same str() only if they are equal (location fields included or absent alike). With a quote or a backslash in a regex str() can coincide for different trees (refuted by examples).", "quantifier": "every pair of queries", "why_tests_cant": "All pairs of trees.", "anchors": ["src/fcsql/parser.py:QueryNode.__str__", "src/fcsql/parser.py:Expression.__str__"]}
{"id": "C51", "title": "Unicode normalisation", "statement": "Every regex in a returned tree is the chosen normal form of the decoded literal; with None it is the decoded literal itself; identifiers and qualifiers are never normalised; the choice of form never affects acceptance.", "quantifier": "every query, every normalisation function", "why_tests_cant": "All strings; relational over configurations.", "anchors": ["src/fcsql/parser.py:ExpressionTreeBuilder.visitRegexp"]}
{"id": "C52", "title": "The ambiguous grammar is resolved deterministically", "statement": "For every token sequence in the grammar there is exactly one parse tree that the generated parser's least-viable-alternative prediction selects; it is a derivation of exactly these tokens, prediction always terminates, and the single-token lookahead tests and state numbers hard-coded in FCSParser.py select the same alternatives of the parser's table.", "quantifier": "every token sequence", "why_tests_cant": "All token sequences; prediction uses unbounded lookahead.", "anchors": ["src/fcsql/FCSParser.py", "src/fcsql/FCSParser.g4"]}
{"id": "C53", "title": "Constructor semantics", "statement": "QueryNode(children=cs, child=c) has the children cs followed by c, sets the parent of each of them to the new node, and changes no other node; Expression normalises blank qualifiers and empty flag sets to None.", "quantifier": "every heap of nodes and every argument list", "why_tests_cant": "All object graphs.", "anchors": ["src/fcsql/parser.py:QueryNode.__init__", "src/fcsql/parser.py:Expression.__init__"]}
{"id": "C54", "title": "The tables inside the generated lexer and parser are the grammar files", "statement": "The serialised tables of FCSLexer.py and FCSParser.py deserialise completely, and they accept what FCSLexer.g4 and FCSParser.g4 say: per lexer rule exactly its texts (white space alone carrying the skip action), in the order of the rules; per parser rule exactly its derivation trees. Every token is the longest text the lexer table reads at its place, by its first alternative; where a lexical error is reported the table reads nothing.", "quantifier": "every text, every tree, every query", "why_tests_cant": "The tables are 4000 opaque numbers; agreement is about infinitely many texts and trees.", "anchors": ["src/fcsql/FCSLexer.py:serializedATN", "src/fcsql/FCSParser.py:serializedATN", "src/fcsql/FCSLexer.g4", "src/fcsql/FCSParser.g4"]}
{"id": "C55", "title": "Prediction in the parser's table is well defined", "statement": "For every state of the parser's table, every stack of pending calls and every rest of the input it is decidable whether the rest can be read to its end; so for every decision and context there is exactly one least alternative or none, and from the start the table reads exactly the token sequences of the grammar.", "quantifier": "every state, call stack and token sequence", "why_tests_cant": "Infinitely many call stacks and inputs.", "anchors": ["src/fcsql/FCSParser.py:serializedATN", "src/fcsql/FCSParser.py"]}
{"id": "C56", "title": "The documented reading, and exactly when it is returned", "statement": "Under the documented rules (! binds stronger than &, & stronger than |, n-ary operators, lone items stand for themselves) every token sequence has at most one reading; a query is accepted exactly if it lexes, has a reading and its numbers are within the integer limit; and parse returns the reading (without locations when they are disabled) exactly if no bracket level of the reading is one of the deviating ones of C19. The result is the reading exactly if the returned tree itself is stratified.", "quantifier": "every query and every parser setting", "why_tests_cant": "All queries: unbounded nesting at all levels at once.", "anchors": ["src/fcsql/parser.py:QueryParser.parse", "src/fcsql/parser.py:ExpressionTreeBuilder", "src/fcsql/FCSParser.g4"]}
{"id": "C57", "title": "Round trip: trees can be written as queries and read back", "statement": "For every documented tree whose contents are expressible (names are identifiers, regular expressions normalised, flags consistent and not empty, repetition bounds valid) the query written from it (its words joined by spaces) is accepted; it is parsed back to the same tree, up to source locations, exactly if no bracket level is a deviating one; different trees are written differently. Conversely every documented tree that parse returns for any query is expressible and has no deviating level, so these trees are exactly the documented results.", "quantifier": "every tree, every query and every parser setting", "why_tests_cant": "All trees of unbounded size, with arbitrary texts, names and numbers in them.", "anchors": ["src/fcsql/parser.py:QueryParser.parse", "src/fcsql/parser.py:ExpressionTreeBuilder", "src/fcsql/FCSParser.g4", "src/fcsql/FCSLexer.g4"]}
{"id": "C58", "title": "Parts of a query are queries, and queries can be put together", "statement": "The text of every segment, group, sequence and disjunction in the tree of an accepted query (and of the query itself) is itself an accepted query, and parses to that part of the tree, its locations counted from its own start (a sequence of one item being that item). The text of every bracket level, of a segment or of a parenthesised expression, reads the same between square brackets of its own whatever stood around it, also when it is not read in the documented way. Conversely accepted queries can be joined: in parentheses, with any repetition, they form a group; one directly after the other a sequence of their items; with a vertical bar between them the disjunction of their alternatives; followed by a within clause the same query within that scope; all with the trees of the parts.", "quantifier": "every accepted query, every part of it and every pair of accepted queries", "why_tests_cant": "Adaptive prediction may look arbitrarily far ahead, so the reading of a part could depend on unboundedly much context; all queries of unbounded size.", "anchors": ["src/fcsql/parser.py:QueryParser.parse", "src/fcsql/parser.py:ExpressionTreeBuilder", "src/fcsql/FCSParser.g4", "src/fcsql/FCSLexer.g4"]}
{"id": "C59", "title": "One parser object, many calls at once, interrupted anywhere", "statement": "When any number of parse calls run on one QueryParser at the same time, interleaved in any way, and asynchronous exceptions (KeyboardInterrupt, MemoryError, RecursionError) hit any of them at any point: a tree that is returned is the tree of that query; a call that was not hit ends as it would alone; a call that was hit inside the try statement raises QueryParserException or the interrupt; no call waits for another; .errors is the list of the call that finished last (a prefix of its errors if that call was hit); the settings are untouched, so the parser can be used further. What is not guaranteed: that after a successful call .errors belongs to that call.", "quantifier": "every schedule, every interruption point, every number of calls and queries", "why_tests_cant": "Thread schedules and interruption points cannot be enumerated or provoked by tests.", "anchors": ["src/fcsql/parser.py:QueryParser.parse", "src/fcsql/parser.py:ErrorListener"]}
{"id": "C60", "title": "The low-level parse tree: accessors, listeners, visitors, names", "statement": "For every tree antlr_parse returns and every context in it: each child is returned by exactly one accessor of the context class; an accessor with an optional index returns the children of its kind in order, one without index the only such child or None; which accessors never return None is exactly what the grammar says. ParseTreeWalker calls every enter/exit method of a listener exactly for the contexts of its rule, outer before inner and inner before outer, visits the tokens in order and is properly nested; method names and tokens suffice to rebuild the tree. A visitor whose methods descend sees every context once; without visitQuery its value for the whole tree is that of the end-of-input token. Rule and token numbers, names, literal names, listener and visitor methods agree with each other and with the tables.", "quantifier": "every query, every tree, every context in it, every set of listener or visitor methods", "why_tests_cant": "All trees; the 23 context classes with 88 accessors are generated code that the tests do not touch.", "anchors": ["src/fcsql/__init__.py:antlr_parse", "src/fcsql/FCSParser.py", "src/fcsql/FCSParserListener.py", "src/fcsql/FCSParserVisitor.py", "src/fcsql/FCSLexer.py"]}
{"id": "C61", "title": "The runtime's adaptive prediction never misleads the generated parser", "statement": "ANTLR's prediction as the runtime performs it on the parser's table (simulate with unknown callers, on a conflict start again with the full call stack, stop as soon as one alternative is left or all conflicts resolve to the same one) returns, for every decision of the grammar, every chain of rule calls and every rest of the input, the least alternative from which the input can be read to its end, if there is one; what it returns is always an alternative of the decision; the check in front of decisions lets every token pass that can come next. Hence the generated parser run with them accepts exactly the queries of the grammar and builds the tree all other properties speak about. What is not guaranteed: that prediction fails when no alternative is viable.", "quantifier": "every decision, call chain, input and query", "why_tests_cant": "Prediction looks arbitrarily far ahead and depends on call stacks of any depth.", "anchors": ["src/fcsql/FCSParser.py:serializedATN", "src/fcsql/FCSParser.py"]}
{"id": "C62", "title": "Depth of results and of parse trees", "statement": "The tree returned by parse is at most one level deeper than the query has tokens (so at most |q| + 2 deep), and the parse tree at most five deeper; parse tree and result have the same depth up to a factor of three. The number of bracketed nodes on the deepest path is the bracket nesting of the query (one more for a bare literal), and the negations of the result are the `!` of the query. A result of the documented shape - in particular the result of any query without `!` - is at most 3 per bracket plus 1 per negation plus 5 levels deep, however long the query is; any result whatsoever is at most 3 per bracket plus 5 per negation plus 5 levels deep. Neither brackets alone nor the factor three can be improved: towers of `!` are arbitrarily deep without brackets, and three levels per bracket are reached.", "quantifier": "every environment, configuration and accepted query", "why_tests_cant": "The recursion depth a consumer needs is a bound over all queries of all lengths.", "anchors": ["src/fcsql/parser.py:QueryParser.parse", "src/fcsql/parser.py:ExpressionTreeBuilder", "src/fcsql/FCSParser.py"]}
{"id": "C63", "title": "A query means what its tokens mean", "statement": "If the tokens of an accepted query are replaced so that, position by position, they have the same kind and say the same - literals that stand for the same text, integers of the same value (within the digit limit), flag letters naming the same flags, words naming the same scope, the same layer names and qualifiers - then, provided the new text has no lexical errors, it is accepted too and yields the same tree up to source locations; with source locations off, the equal tree.", "quantifier": "every environment, configuration, accepted query and rewording of it", "why_tests_cant": "It relates all pairs of queries of any size, across every construct and every nesting, not a list of rewordings.", "anchors": ["src/fcsql/parser.py:QueryParser.parse", "src/fcsql/parser.py:ExpressionTreeBuilder", "src/fcsql/FCSParser.py", "src/fcsql/FCSLexer.py"]}
{"id": "C64", "title": "Parsing ends on every text, and complains exactly about texts outside the grammar", "statement": "With ANTLR's error recovery (skip, insert, resynchronise) in place of an assumption about it: on every text the generated parser ends, having read the whole input; it reports at least one syntax error if the tokens do not follow the grammar and none if they do; every reported error is about a token of the query and carries that token's line and column; there are at most as many syntax errors as tokens; the parser's error list contains all lexical errors and all syntax errors, each kind in its order, and nothing else; a syntax error is never listed before a lexical error to the left of its token; the exception of parse carries the message of the first of them (so that of the first lexical error, if one is to the left of the token the parser first complains about), the exception of antlr_parse 'line L:C message' of the first syntax error. (That the list as a whole is in the order of positions is false.) All properties of parse that are stated under a contract on error recovery hold for this error recovery.", "quantifier": "every text (grammatical or not), every environment and configuration", "why_tests_cant": "Termination and error reporting on all malformed inputs; recovery takes the parser through states no valid input reaches.", "anchors": ["src/fcsql/FCSParser.py", "src/fcsql/parser.py:QueryParser.parse", "src/fcsql/parser.py:ErrorListener.syntaxError", "src/fcsql/__init__.py:antlr_parse"]}
{"id": "C65", "title": "What the first syntax error says", "statement": "On a text outside the grammar, let t be the token at which the parser finds its first error: the tokens before t begin a valid query. Either the message is about t itself (its line and column) and reads \"mismatched input 't' expecting L\", \"extraneous input 't' expecting L\" or \"missing L at 't'\", where L lists token kinds in the order of their numbers, not including t's kind, such that after the tokens before t a valid query can go on with every kind in L; or it reads \"no viable alternative at input '...'\" with the text of the tokens from t to the token it is about, all tokens before which begin a valid query. Hence the first error is never about a token behind the first wrong one. Without lexical errors this message is that of the exception parse raises. antlr_parse raises with 'line L:C ' and this message on every text outside the grammar, L and C being line and column of the token the error is about. (That the token of the first error always is a wrong one is false.)", "quantifier": "every text outside the grammar, every environment and configuration", "why_tests_cant": "The claim is about all malformed texts and all valid continuations of their beginnings.", "anchors": ["src/fcsql/FCSParser.py", "src/fcsql/parser.py:QueryParser.parse", "src/fcsql/parser.py:ErrorListener.syntaxError", "src/fcsql/__init__.py:antlr_parse"]}
{"id": "C66", "title": "What the exception says about a well-formed but unusable query", "statement": "If a query has no lexical and no syntax error, parse either succeeds or raises QueryParserException with the message about the first token, reading from the left, that makes the query unusable: \"invalid escape sequence: \\c\" or \"invalid codepoint: U+H\" (the number in customary capital hexadecimal) for the first element of a literal that cannot be decoded; one of two messages about flags that exclude each other (both kinds of case sensitivity being reported before literal matching); \"invalid integer: ...\" for an integer with too many digits; \"bad qualifier: min > max (a > b)\" with both numbers in customary decimal for a range that ends before it begins. Exactly one message fits, whatever the configuration; without such a token the query is parsed. (Interpreters before 3.13 answer code points of 2^31 and more with \"an unexpected exception occured while parsing\".)", "quantifier": "every well-formed query, every environment and configuration", "why_tests_cant": "Which of several defects is reported first, and with which text, depends on the traversal of arbitrarily nested queries.", "anchors": ["src/fcsql/parser.py:ExpressionTreeBuilder", "src/fcsql/parser.py:ExpressionTreeBuilder.processRepetitionRange", "src/fcsql/parser.py:ExpressionTreeBuilder.unescapeUnicode", "src/fcsql/parser.py:QueryParser.parse"]}
{"id": "C67", "title": "Literals can be put into queries safely", "statement": "A program that builds queries from fixed parts and holes, each part dividing into tokens on its own and each hole filled with a literal: if the query is accepted with some literals in the holes it is accepted with any other literals in them, and the returned trees are equal except for the values of the expressions at the holes, which are the (normalised) texts the literals mean; all other values stay. In particular any texts can be inserted if they are quoted (backslashes and the quote escaped): they end up as values of expressions and nowhere else. Without quoting this is false.", "quantifier": "every template, every two fillings, every environment and configuration", "why_tests_cant": "Injection safety is a statement about all texts an attacker may supply and all templates.", "anchors": ["src/fcsql/parser.py:QueryParser.parse", "src/fcsql/parser.py:ExpressionTreeBuilder.visitRegexp", "src/fcsql/FCSLexer.g4:REGEXP"]}
{"id": "C68", "title": "Sizes of results and of parse trees", "statement": "Results are as large as queries, not larger: if parse returns a tree for a query of t tokens, the tree has at most 2t+1 nodes (and at most two per character and one more) and at least (t+1)/8; the tree returned by antlr_parse has, tokens included, at least t+1 and at most 5t+4 nodes. The bound 2t+1 is met by queries of every size.", "quantifier": "every accepted query", "why_tests_cant": "A bound on the size of results has to hold for queries of any size.", "anchors": ["src/fcsql/parser.py:QueryParser.parse", "src/fcsql/parser.py:ExpressionTreeBuilder", "src/fcsql/__init__.py:antlr_parse", "src/fcsql/FCSParser.g4"]}
{"id": "C69", "title": "The displayed parse tree tells all, and source intervals are exact", "statement": "Two trees returned by antlr_parse have the same tree.toStringTree(FCSParser.ruleNames) (this is what the debug log of parse shows) exactly if they agree in all rules, token kinds and token texts, except that a tab, line feed or carriage return inside a literal looks like the escape \\t, \\n, \\r; token positions and layout do not show. Still, of two queries displayed in the same way, one is accepted by parse if the other is (and no lexical error keeps it from it), with the same result up to source locations. ctx.getSourceInterval() of every context names the first and the last of its tokens, the end of the query not counted; ctx.getText() is the text of these tokens (and <EOF> at the end, for the whole query only).", "quantifier": "every pair of queries, every context of their trees, every environment and configuration", "why_tests_cant": "That a textual display is unambiguous, with tokens that contain blanks and brackets, is a claim about all pairs of trees.", "anchors": ["src/fcsql/parser.py:QueryParser.parse", "src/fcsql/__init__.py:antlr_parse", "examples/run_parse.py:parse_raw", "src/fcsql/FCSParser.g4"]}
{"id": "C70", "title": "Layout moves source locations with their tokens, and does nothing else", "statement": "White space put into an accepted query at a token boundary i (k characters) gives the very same result, in which every source location is moved: a start at or behind i and an (exclusive) end behind i are moved by k, the others stay. White space in front moves all locations, white space behind gives the identical result. More generally, if the tokens of two queries say the same one by one, then each node is located, in the second result, from the start of the token that corresponds to the token where it starts in the first, to the end of the token that corresponds to the one where it ends.", "quantifier": "every accepted query, every token boundary, every amount and kind of white space; every pair of queries whose tokens say the same; every environment and configuration", "why_tests_cant": "Locations after re-formatting depend on every token position and every node; a test can only look at a few layouts.", "anchors": ["src/fcsql/parser.py:SourceLocation", "src/fcsql/parser.py:SourceLocation.fromContext", "src/fcsql/parser.py:QueryParser.parse", "src/fcsql/FCSParser.g4"]}
{"id": "C71", "title": "The tables shared by all lexers and parsers never change a result", "statement": "All FCSLexer and FCSParser objects of a process fill and use the same DFA objects (decisionsToDFA), without locks. Still, whatever was parsed before, whatever other threads parse at the same time (interleaved at single reads and writes of the tables, with the races this allows: states entered twice, edge lists replaced), and whatever calls were abandoned in the middle of such an update by an exception: a call of QueryParser.parse that ends returns or raises exactly what it does in a fresh process, with the same .errors; no call fails because of what it finds in the tables; and a call ends after a number of its own steps that depends only on its query, so no other call can block it.", "quantifier": "every history of the process: every number of calls, every query and configuration, every interleaving, every point at which calls are killed", "why_tests_cant": "Cache state depends on everything parsed before, and races show only in particular interleavings.", "anchors": ["src/fcsql/FCSLexer.py:FCSLexer.decisionsToDFA", "src/fcsql/FCSParser.py:FCSParser.decisionsToDFA", "src/fcsql/FCSLexer.py:FCSLexer.__init__", "src/fcsql/FCSParser.py:FCSParser.__init__", "src/fcsql/parser.py:QueryParser.parse"]}
{"id": "C72", "title": "Validation does not depend on layout and is put together from its parts", "statement": "validate gives the same verdict for a query (accepted or not) and for the query with white space put in between tokens, and for two queries whose tokens say the same; with return_errors=True it lists the same complaints (message and type) in the same order, about the corresponding text. For accepted queries, the verdict on q1|q2 and on q1 q2 is the conjunction of the verdicts, the verdict on (q) with a quantifier and on q within s is that on q; the lists are those of the parts (errors, then warnings), with the same messages, types and fragments and positions moved to where the part stands. What validate complains about in the text of a part of a query (a segment, group, sequence, alternative) it complains about in the whole, so every part of a valid query is valid.", "quantifier": "all queries, token boundaries, white space, parts and compositions, for warnings_as_errors on and off", "why_tests_cant": "Infinitely many layouts and compositions of queries.", "anchors": ["src/fcsql/__init__.py:validate", "src/fcsql/validation.py:FCSQLValidator", "src/fcsql/parser.py:QueryParser.parse"]}
{"id": "C73", "title": "Parsing never blows up: linearly many predictions, quadratically many steps", "statement": "For every text of n characters, query or not, a call of QueryParser.parse simulates the DFAs (matching a token in the lexer, predicting an alternative in the parser) at most 2500*(n+2) times: no text, and no way of recovering from errors in it, makes the parser predict again and again at the same place. Each simulation has at most the n characters, or the n+1 tokens, in front of it; so the call is over after at most (150*(n+2))^2 accesses to the shared DFA tables of its own, whatever they hold and whatever other threads do meanwhile.", "quantifier": "all texts (valid or not), lengths, configurations, states of the shared tables, interleavings", "why_tests_cant": "A bound on work for every text of every length: tests measure a few inputs.", "anchors": ["src/fcsql/FCSParser.py:FCSParser", "src/fcsql/FCSLexer.py:FCSLexer", "src/fcsql/parser.py:QueryParser.parse"]}
{"id": "C74", "title": "Every query can be written in printable ASCII", "statement": "For every accepted query there is a query made of the characters from space to tilde only that is accepted too, with the same tree up to source locations (the identical tree if these are off). Hence no text is out of reach: for every text there is a printable ASCII query that parses to the segment searching for this text in the default layer.", "quantifier": "every accepted query, every text, every environment and configuration", "why_tests_cant": "For every text over all of Unicode; a test tries a few non-ASCII literals.", "anchors": ["src/fcsql/parser.py:QueryParser.parse", "src/fcsql/parser.py:ExpressionTreeBuilder", "src/fcsql/FCSLexer.g4"]}
{"id": "C75", "title": "Two queries have the same tree exactly if they are wordings of each other", "statement": "For two accepted queries: the trees agree (source locations aside) if and only if the two token sequences are wordings of each other: a query is repeated wording by wording, where a literal may be spelt with other quotes or escapes and its flags in any order, a bare literal may be written as a bracketed comparison of the default layer with the default operator, a quantifier as any other one with the same bounds (none, {1} and {1,1}; ? and {0,1}; ...), operators and keywords in any spelling of their token, and everything else (parentheses, alternatives, groups, the order of segments) is the same. Nothing else is identified: for instance redundant parentheses between brackets, and a group repeated once, remain visible. Moreover a text that the lexer reads without error (and whose integers are convertible) and that is a wording of an accepted query is itself accepted, with that tree. fcsql.validate gives all wordings of a query the same verdict and, with return_errors, the same messages in the same order (position and fragment follow the wording). For queries whose tree is the documented reading (and an idempotent normalisation) the text that C57 writes for the tree is a wording of the query, and two such queries are wordings of each other exactly if the same text is written for both.", "quantifier": "every pair of texts, every environment and configuration", "why_tests_cant": "The equivalence relates all pairs of queries; a test compares a few.", "anchors": ["src/fcsql/parser.py:QueryParser.parse", "src/fcsql/parser.py:ExpressionTreeBuilder", "src/fcsql/validation.py:FCSQLValidator", "src/fcsql/__init__.py:validate"]}
{"id": "C76", "title": "The interpreter can only change normalised values and refuse long repetition bounds", "statement": "For a fixed query and parser settings, two interpreter installations (Python version, its Unicode tables, its limit on the digits of int(), the behaviour of chr on huge numbers, and whatever the ANTLR runtime reports on text outside the grammar) can differ in two ways only. A query accepted on one is accepted on the other unless one of its repetition bounds has more digits than the other converts; and if both accept, the trees are the same, source locations, flags, bounds and structure included, except that where one holds its own Unicode normalisation of a text the other holds its normalisation of the same text. If the normalisations agree (or none is configured), the trees are equal; and fcsql.validate then gives a query both accept the same verdict and the same complaints.", "quantifier": "every query, every pair of interpreters, every configuration", "why_tests_cant": "A test runs on the interpreters installed; the claim is about all of them.", "anchors": ["src/fcsql/parser.py:QueryParser.parse", "src/fcsql/parser.py:ExpressionTreeBuilder"]}
{"id": "C77", "title": "The shape of a tree depends on the kinds of the tokens only", "statement": "If two accepted queries consist of tokens of the same kinds, one by one, then their trees have the same shape: node by node the same class, the same operator and the same number of children, and every node covers the corresponding tokens (where locations are enabled, each location of the second tree is obtained from that of the first by taking token starts to the starts, and token ends to the ends, of the corresponding tokens). So names, literal contents, flags, repetition bounds, spelling of operators and keywords, layout and the interpreter never influence the structure. Likewise acceptance: a text that the lexer reads without error and whose tokens have the kinds of an accepted query is accepted if and only if the texts of its literals, flags and repetition bounds are usable; and antlr_parse succeeds on one of two such texts exactly if on the other, with parse trees that are the same rule by rule.", "quantifier": "every pair of texts, every configuration and pair of interpreters", "why_tests_cant": "Templates filled with user input rely on it for every input; a test fills in a few.", "anchors": ["src/fcsql/parser.py:QueryParser.parse", "src/fcsql/parser.py:ExpressionTreeBuilder", "src/fcsql/__init__.py:antlr_parse"]}
