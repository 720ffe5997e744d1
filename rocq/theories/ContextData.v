(** The context classes, constants and name tables of the generated modules FCSParser.py, FCSParserListener.py,
    FCSParserVisitor.py and FCSLexer.py, copied by tools/gen_contexts.py (python ast of these files). *)
From Coq Require Import String ZArith List.
From Verif Require Import Base LexRules Grammar.
Import ListNotations.

(** What an accessor of a context class looks for: a child context of a rule, or a terminal of a type. *)
Inductive kind := KRule (r : rule) | KTok (t : ttype).
(** An accessor: name, kind, and whether it takes an optional index (then it returns a list without one). *)
Record accessor := mkAcc { a_name : pystr; a_kind : kind; a_indexed : bool }.

(** The accessors of the context class of each rule, FCSParser.py:182-1998 *)
Definition accessors (r : rule) : list accessor :=
  match r with
  | query =>
      [mkAcc (u "main_query") (KRule main_query) false (* 189-190 *);
       mkAcc (u "EOF") (KTok EOF) false (* 193-194 *);
       mkAcc (u "WITHIN") (KTok WITHIN) false (* 196-197 *);
       mkAcc (u "within_part") (KRule within_part) false (* 199-200 *)]
  | main_query =>
      [mkAcc (u "query_simple") (KRule query_simple) false (* 260-261 *);
       mkAcc (u "query_group") (KRule query_group) false (* 264-265 *);
       mkAcc (u "query_sequence") (KRule query_sequence) false (* 268-269 *);
       mkAcc (u "query_disjunction") (KRule query_disjunction) false (* 272-273 *)]
  | query_disjunction =>
      [mkAcc (u "query_simple") (KRule query_simple) true (* 345-349 *);
       mkAcc (u "query_sequence") (KRule query_sequence) true (* 352-356 *);
       mkAcc (u "query_group") (KRule query_group) true (* 359-363 *);
       mkAcc (u "OR") (KTok OR) true (* 366-370 *)]
  | query_sequence =>
      [mkAcc (u "query_simple") (KRule query_simple) true (* 465-469 *);
       mkAcc (u "query_group") (KRule query_group) true (* 472-476 *)]
  | query_group =>
      [mkAcc (u "L_PAREN") (KTok L_PAREN) false (* 546-547 *);
       mkAcc (u "R_PAREN") (KTok R_PAREN) false (* 549-550 *);
       mkAcc (u "query_disjunction") (KRule query_disjunction) false (* 552-553 *);
       mkAcc (u "query_sequence") (KRule query_sequence) false (* 556-557 *);
       mkAcc (u "quantifier") (KRule quantifier) false (* 560-561 *)]
  | query_simple =>
      [mkAcc (u "query_implicit") (KRule query_implicit) false (* 633-634 *);
       mkAcc (u "query_segment") (KRule query_segment) false (* 637-638 *);
       mkAcc (u "quantifier") (KRule quantifier) false (* 641-642 *)]
  | quantifier =>
      [mkAcc (u "Q_ONE_OR_MORE") (KTok Q_ONE_OR_MORE) false (* 710-711 *);
       mkAcc (u "Q_ZERO_OR_MORE") (KTok Q_ZERO_OR_MORE) false (* 713-714 *);
       mkAcc (u "Q_ZERO_OR_ONE") (KTok Q_ZERO_OR_ONE) false (* 716-717 *);
       mkAcc (u "L_CURLY_BRACKET") (KTok L_CURLY_BRACKET) false (* 719-720 *);
       mkAcc (u "R_CURLY_BRACKET") (KTok R_CURLY_BRACKET) false (* 722-723 *);
       mkAcc (u "INTEGER") (KTok INTEGER) true (* 725-729 *);
       mkAcc (u "Q_COMMA") (KTok Q_COMMA) false (* 731-732 *)]
  | query_implicit =>
      [mkAcc (u "regexp") (KRule regexp) false (* 840-841 *)]
  | query_segment =>
      [mkAcc (u "L_SQUARE_BRACKET") (KTok L_SQUARE_BRACKET) false (* 888-889 *);
       mkAcc (u "R_SQUARE_BRACKET") (KTok R_SQUARE_BRACKET) false (* 891-892 *);
       mkAcc (u "expression") (KRule expression) false (* 894-895 *)]
  | within_part =>
      [mkAcc (u "within_part_simple") (KRule within_part_simple) false (* 953-954 *)]
  | within_part_simple =>
      [mkAcc (u "SIMPLE_WITHIN_SCOPE") (KTok SIMPLE_WITHIN_SCOPE) false (* 1001-1002 *)]
  | expression =>
      [mkAcc (u "expression_basic") (KRule expression_basic) false (* 1048-1049 *);
       mkAcc (u "expression_group") (KRule expression_group) false (* 1052-1053 *);
       mkAcc (u "expression_or") (KRule expression_or) false (* 1056-1057 *);
       mkAcc (u "expression_and") (KRule expression_and) false (* 1060-1061 *);
       mkAcc (u "expression_not") (KRule expression_not) false (* 1064-1065 *)]
  | expression_or =>
      [mkAcc (u "expression_basic") (KRule expression_basic) true (* 1143-1147 *);
       mkAcc (u "expression_group") (KRule expression_group) true (* 1150-1154 *);
       mkAcc (u "expression_and") (KRule expression_and) true (* 1157-1161 *);
       mkAcc (u "expression_not") (KRule expression_not) true (* 1164-1168 *);
       mkAcc (u "OR") (KTok OR) true (* 1171-1175 *)]
  | expression_and =>
      [mkAcc (u "expression_basic") (KRule expression_basic) true (* 1281-1285 *);
       mkAcc (u "expression_group") (KRule expression_group) true (* 1288-1292 *);
       mkAcc (u "expression_not") (KRule expression_not) true (* 1295-1299 *);
       mkAcc (u "AND") (KTok AND) true (* 1302-1306 *);
       mkAcc (u "expression_or") (KRule expression_or) true (* 1308-1312 *)]
  | expression_group =>
      [mkAcc (u "L_PAREN") (KTok L_PAREN) false (* 1413-1414 *);
       mkAcc (u "R_PAREN") (KTok R_PAREN) false (* 1416-1417 *);
       mkAcc (u "expression_basic") (KRule expression_basic) false (* 1419-1420 *);
       mkAcc (u "expression_group") (KRule expression_group) false (* 1423-1424 *);
       mkAcc (u "expression_or") (KRule expression_or) false (* 1427-1428 *);
       mkAcc (u "expression_and") (KRule expression_and) false (* 1431-1432 *);
       mkAcc (u "expression_not") (KRule expression_not) false (* 1435-1436 *)]
  | expression_not =>
      [mkAcc (u "NOT") (KTok NOT) false (* 1514-1515 *);
       mkAcc (u "expression_basic") (KRule expression_basic) false (* 1517-1518 *);
       mkAcc (u "expression_group") (KRule expression_group) false (* 1521-1522 *);
       mkAcc (u "expression_not") (KRule expression_not) false (* 1525-1526 *);
       mkAcc (u "expression_or") (KRule expression_or) false (* 1529-1530 *);
       mkAcc (u "expression_and") (KRule expression_and) false (* 1533-1534 *)]
  | expression_basic =>
      [mkAcc (u "attribute") (KRule attribute) false (* 1610-1611 *);
       mkAcc (u "regexp") (KRule regexp) false (* 1614-1615 *);
       mkAcc (u "OPERATOR_EQ") (KTok OPERATOR_EQ) false (* 1618-1619 *);
       mkAcc (u "OPERATOR_NE") (KTok OPERATOR_NE) false (* 1621-1622 *)]
  | attribute =>
      [mkAcc (u "identifier") (KRule identifier) false (* 1678-1679 *);
       mkAcc (u "qualifier") (KRule qualifier) false (* 1682-1683 *);
       mkAcc (u "COLON") (KTok COLON) false (* 1686-1687 *)]
  | qualifier =>
      [mkAcc (u "IDENTIFIER") (KTok IDENTIFIER) false (* 1743-1744 *);
       mkAcc (u "WITHIN") (KTok WITHIN) false (* 1746-1747 *);
       mkAcc (u "SIMPLE_WITHIN_SCOPE") (KTok SIMPLE_WITHIN_SCOPE) false (* 1749-1750 *);
       mkAcc (u "REGEXP_FLAGS") (KTok REGEXP_FLAGS) false (* 1752-1753 *)]
  | identifier =>
      [mkAcc (u "IDENTIFIER") (KTok IDENTIFIER) false (* 1805-1806 *);
       mkAcc (u "WITHIN") (KTok WITHIN) false (* 1808-1809 *);
       mkAcc (u "SIMPLE_WITHIN_SCOPE") (KTok SIMPLE_WITHIN_SCOPE) false (* 1811-1812 *);
       mkAcc (u "REGEXP_FLAGS") (KTok REGEXP_FLAGS) false (* 1814-1815 *)]
  | regexp =>
      [mkAcc (u "regexp_pattern") (KRule regexp_pattern) false (* 1867-1868 *);
       mkAcc (u "FWD_SLASH") (KTok FWD_SLASH) false (* 1871-1872 *);
       mkAcc (u "regexp_flag") (KRule regexp_flag) false (* 1874-1875 *)]
  | regexp_pattern =>
      [mkAcc (u "REGEXP") (KTok REGEXP) false (* 1933-1934 *)]
  | regexp_flag =>
      [mkAcc (u "REGEXP_FLAGS") (KTok REGEXP_FLAGS) false (* 1980-1981 *)]
  end.
(** Per context class: the method [enterRule(listener)] calls if the listener has it. *)
Definition enter_name (r : rule) : pystr :=
  match r with
  | query => u "enterQuery" (* FCSParser.py:206-208 *)
  | main_query => u "enterMain_query" (* FCSParser.py:279-281 *)
  | query_disjunction => u "enterQuery_disjunction" (* FCSParser.py:375-377 *)
  | query_sequence => u "enterQuery_sequence" (* FCSParser.py:482-484 *)
  | query_group => u "enterQuery_group" (* FCSParser.py:567-569 *)
  | query_simple => u "enterQuery_simple" (* FCSParser.py:648-650 *)
  | quantifier => u "enterQuantifier" (* FCSParser.py:737-739 *)
  | query_implicit => u "enterQuery_implicit" (* FCSParser.py:847-849 *)
  | query_segment => u "enterQuery_segment" (* FCSParser.py:901-903 *)
  | within_part => u "enterWithin_part" (* FCSParser.py:960-962 *)
  | within_part_simple => u "enterWithin_part_simple" (* FCSParser.py:1007-1009 *)
  | expression => u "enterExpression" (* FCSParser.py:1071-1073 *)
  | expression_or => u "enterExpression_or" (* FCSParser.py:1180-1182 *)
  | expression_and => u "enterExpression_and" (* FCSParser.py:1318-1320 *)
  | expression_group => u "enterExpression_group" (* FCSParser.py:1442-1444 *)
  | expression_not => u "enterExpression_not" (* FCSParser.py:1540-1542 *)
  | expression_basic => u "enterExpression_basic" (* FCSParser.py:1627-1629 *)
  | attribute => u "enterAttribute" (* FCSParser.py:1692-1694 *)
  | qualifier => u "enterQualifier" (* FCSParser.py:1758-1760 *)
  | identifier => u "enterIdentifier" (* FCSParser.py:1820-1822 *)
  | regexp => u "enterRegexp" (* FCSParser.py:1881-1883 *)
  | regexp_pattern => u "enterRegexp_pattern" (* FCSParser.py:1939-1941 *)
  | regexp_flag => u "enterRegexp_flag" (* FCSParser.py:1986-1988 *)
  end.
(** Per context class: the method [exitRule(listener)] calls if the listener has it. *)
Definition exit_name (r : rule) : pystr :=
  match r with
  | query => u "exitQuery" (* FCSParser.py:210-212 *)
  | main_query => u "exitMain_query" (* FCSParser.py:283-285 *)
  | query_disjunction => u "exitQuery_disjunction" (* FCSParser.py:379-381 *)
  | query_sequence => u "exitQuery_sequence" (* FCSParser.py:486-488 *)
  | query_group => u "exitQuery_group" (* FCSParser.py:571-573 *)
  | query_simple => u "exitQuery_simple" (* FCSParser.py:652-654 *)
  | quantifier => u "exitQuantifier" (* FCSParser.py:741-743 *)
  | query_implicit => u "exitQuery_implicit" (* FCSParser.py:851-853 *)
  | query_segment => u "exitQuery_segment" (* FCSParser.py:905-907 *)
  | within_part => u "exitWithin_part" (* FCSParser.py:964-966 *)
  | within_part_simple => u "exitWithin_part_simple" (* FCSParser.py:1011-1013 *)
  | expression => u "exitExpression" (* FCSParser.py:1075-1077 *)
  | expression_or => u "exitExpression_or" (* FCSParser.py:1184-1186 *)
  | expression_and => u "exitExpression_and" (* FCSParser.py:1322-1324 *)
  | expression_group => u "exitExpression_group" (* FCSParser.py:1446-1448 *)
  | expression_not => u "exitExpression_not" (* FCSParser.py:1544-1546 *)
  | expression_basic => u "exitExpression_basic" (* FCSParser.py:1631-1633 *)
  | attribute => u "exitAttribute" (* FCSParser.py:1696-1698 *)
  | qualifier => u "exitQualifier" (* FCSParser.py:1762-1764 *)
  | identifier => u "exitIdentifier" (* FCSParser.py:1824-1826 *)
  | regexp => u "exitRegexp" (* FCSParser.py:1885-1887 *)
  | regexp_pattern => u "exitRegexp_pattern" (* FCSParser.py:1943-1945 *)
  | regexp_flag => u "exitRegexp_flag" (* FCSParser.py:1990-1992 *)
  end.
(** Per context class: the method [accept(visitor)] calls if the visitor has it (otherwise [visitChildren]). *)
Definition visit_name (r : rule) : pystr :=
  match r with
  | query => u "visitQuery" (* FCSParser.py:214-218 *)
  | main_query => u "visitMain_query" (* FCSParser.py:287-291 *)
  | query_disjunction => u "visitQuery_disjunction" (* FCSParser.py:383-387 *)
  | query_sequence => u "visitQuery_sequence" (* FCSParser.py:490-494 *)
  | query_group => u "visitQuery_group" (* FCSParser.py:575-579 *)
  | query_simple => u "visitQuery_simple" (* FCSParser.py:656-660 *)
  | quantifier => u "visitQuantifier" (* FCSParser.py:745-749 *)
  | query_implicit => u "visitQuery_implicit" (* FCSParser.py:855-859 *)
  | query_segment => u "visitQuery_segment" (* FCSParser.py:909-913 *)
  | within_part => u "visitWithin_part" (* FCSParser.py:968-972 *)
  | within_part_simple => u "visitWithin_part_simple" (* FCSParser.py:1015-1019 *)
  | expression => u "visitExpression" (* FCSParser.py:1079-1083 *)
  | expression_or => u "visitExpression_or" (* FCSParser.py:1188-1192 *)
  | expression_and => u "visitExpression_and" (* FCSParser.py:1326-1330 *)
  | expression_group => u "visitExpression_group" (* FCSParser.py:1450-1454 *)
  | expression_not => u "visitExpression_not" (* FCSParser.py:1548-1552 *)
  | expression_basic => u "visitExpression_basic" (* FCSParser.py:1635-1639 *)
  | attribute => u "visitAttribute" (* FCSParser.py:1700-1704 *)
  | qualifier => u "visitQualifier" (* FCSParser.py:1766-1770 *)
  | identifier => u "visitIdentifier" (* FCSParser.py:1828-1832 *)
  | regexp => u "visitRegexp" (* FCSParser.py:1889-1893 *)
  | regexp_pattern => u "visitRegexp_pattern" (* FCSParser.py:1947-1951 *)
  | regexp_flag => u "visitRegexp_flag" (* FCSParser.py:1994-1998 *)
  end.
(** [getRuleIndex] of each context class with the constants FCSParser.py:115-137 *)
Definition rule_index (r : rule) : nat :=
  match r with
  | query => 0 | main_query => 1 | query_disjunction => 2 | query_sequence => 3 | query_group => 4 | query_simple => 5 | quantifier => 6 | query_implicit => 7 | query_segment => 8 | within_part => 9 | within_part_simple => 10 | expression => 11 | expression_or => 12 | expression_and => 13 | expression_group => 14 | expression_not => 15 | expression_basic => 16 | attribute => 17 | qualifier => 18 | identifier => 19 | regexp => 20 | regexp_pattern => 21 | regexp_flag => 22
  end.
(** The token type constants, FCSParser.py:146-171 ([EOF] is [Token.EOF] = -1) *)
Definition type_number (t : ttype) : Z :=
  match t with
  | EOF => (-1) | L_PAREN => 1 | R_PAREN => 2 | L_SQUARE_BRACKET => 3 | R_SQUARE_BRACKET => 4 | OR => 5 | AND => 6 | NOT => 7 | FWD_SLASH => 8 | L_CURLY_BRACKET => 9 | R_CURLY_BRACKET => 10 | Q_ONE_OR_MORE => 11 | Q_ZERO_OR_MORE => 12 | Q_ZERO_OR_ONE => 13 | Q_COMMA => 14 | OPERATOR_EQ => 15 | OPERATOR_NE => 16 | COLON => 17 | WITHIN => 18 | SIMPLE_WITHIN_SCOPE => 19 | REGEXP_FLAGS => 20 | IDENTIFIER => 21 | INTEGER => 22 | REGEXP => 23 | QUOTED_STRING => 24 | Space => 25
  end%Z.
(** The token type constants of the lexer, FCSLexer.py:111-135 *)
Definition lexer_type_number (t : ttype) : Z :=
  match t with
  | EOF => (-1) | L_PAREN => 1 | R_PAREN => 2 | L_SQUARE_BRACKET => 3 | R_SQUARE_BRACKET => 4 | OR => 5 | AND => 6 | NOT => 7 | FWD_SLASH => 8 | L_CURLY_BRACKET => 9 | R_CURLY_BRACKET => 10 | Q_ONE_OR_MORE => 11 | Q_ZERO_OR_MORE => 12 | Q_ZERO_OR_ONE => 13 | Q_COMMA => 14 | OPERATOR_EQ => 15 | OPERATOR_NE => 16 | COLON => 17 | WITHIN => 18 | SIMPLE_WITHIN_SCOPE => 19 | REGEXP_FLAGS => 20 | IDENTIFIER => 21 | INTEGER => 22 | REGEXP => 23 | QUOTED_STRING => 24 | Space => 25
  end%Z.
(** [ruleNames], FCSParser.py:139-144 *)
Definition rule_names : list pystr :=
  map u ["query"; "main_query"; "query_disjunction"; "query_sequence"; "query_group"; "query_simple"; "quantifier"; "query_implicit"; "query_segment"; "within_part"; "within_part_simple"; "expression"; "expression_or"; "expression_and"; "expression_group"; "expression_not"; "expression_basic"; "attribute"; "qualifier"; "identifier"; "regexp"; "regexp_pattern"; "regexp_flag"]%string.
(** [literalNames], FCSParser.py:103-105 *)
Definition literal_names : list pystr :=
  map u ["<INVALID>"; "'('"; "')'"; "'['"; "']'"; "'|'"; "'&'"; "'!'"; "'/'"; "'{'"; "'}'"; "'+'"; "'*'"; "'?'"; "','"; "'='"; "'!='"; "':'"; "'within'"]%string.
(** [symbolicNames], FCSParser.py:107-113 *)
Definition symbolic_names : list pystr :=
  map u ["<INVALID>"; "L_PAREN"; "R_PAREN"; "L_SQUARE_BRACKET"; "R_SQUARE_BRACKET"; "OR"; "AND"; "NOT"; "FWD_SLASH"; "L_CURLY_BRACKET"; "R_CURLY_BRACKET"; "Q_ONE_OR_MORE"; "Q_ZERO_OR_MORE"; "Q_ZERO_OR_ONE"; "Q_COMMA"; "OPERATOR_EQ"; "OPERATOR_NE"; "COLON"; "WITHIN"; "SIMPLE_WITHIN_SCOPE"; "REGEXP_FLAGS"; "IDENTIFIER"; "INTEGER"; "REGEXP"; "QUOTED_STRING"; "Space"]%string.
(** [literalNames], FCSLexer.py:141-143 *)
Definition lexer_literal_names : list pystr :=
  map u ["<INVALID>"; "'('"; "')'"; "'['"; "']'"; "'|'"; "'&'"; "'!'"; "'/'"; "'{'"; "'}'"; "'+'"; "'*'"; "'?'"; "','"; "'='"; "'!='"; "':'"; "'within'"]%string.
(** [symbolicNames], FCSLexer.py:145-151 *)
Definition lexer_symbolic_names : list pystr :=
  map u ["<INVALID>"; "L_PAREN"; "R_PAREN"; "L_SQUARE_BRACKET"; "R_SQUARE_BRACKET"; "OR"; "AND"; "NOT"; "FWD_SLASH"; "L_CURLY_BRACKET"; "R_CURLY_BRACKET"; "Q_ONE_OR_MORE"; "Q_ZERO_OR_MORE"; "Q_ZERO_OR_ONE"; "Q_COMMA"; "OPERATOR_EQ"; "OPERATOR_NE"; "COLON"; "WITHIN"; "SIMPLE_WITHIN_SCOPE"; "REGEXP_FLAGS"; "IDENTIFIER"; "INTEGER"; "REGEXP"; "QUOTED_STRING"; "Space"]%string.
(** The methods of [FCSParserListener] (all do nothing), FCSParserListener.py:9-215 *)
Definition listener_methods : list pystr :=
  map u ["enterQuery"; "exitQuery"; "enterMain_query"; "exitMain_query"; "enterQuery_disjunction"; "exitQuery_disjunction"; "enterQuery_sequence"; "exitQuery_sequence"; "enterQuery_group"; "exitQuery_group"; "enterQuery_simple"; "exitQuery_simple"; "enterQuantifier"; "exitQuantifier"; "enterQuery_implicit"; "exitQuery_implicit"; "enterQuery_segment"; "exitQuery_segment"; "enterWithin_part"; "exitWithin_part"; "enterWithin_part_simple"; "exitWithin_part_simple"; "enterExpression"; "exitExpression"; "enterExpression_or"; "exitExpression_or"; "enterExpression_and"; "exitExpression_and"; "enterExpression_group"; "exitExpression_group"; "enterExpression_not"; "exitExpression_not"; "enterExpression_basic"; "exitExpression_basic"; "enterAttribute"; "exitAttribute"; "enterQualifier"; "exitQualifier"; "enterIdentifier"; "exitIdentifier"; "enterRegexp"; "exitRegexp"; "enterRegexp_pattern"; "exitRegexp_pattern"; "enterRegexp_flag"; "exitRegexp_flag"]%string.
(** The methods of [FCSParserVisitor] (all [return self.visitChildren(ctx)]), FCSParserVisitor.py:10-124 *)
Definition visitor_methods : list pystr :=
  map u ["visitQuery"; "visitMain_query"; "visitQuery_disjunction"; "visitQuery_sequence"; "visitQuery_group"; "visitQuery_simple"; "visitQuantifier"; "visitQuery_implicit"; "visitQuery_segment"; "visitWithin_part"; "visitWithin_part_simple"; "visitExpression"; "visitExpression_or"; "visitExpression_and"; "visitExpression_group"; "visitExpression_not"; "visitExpression_basic"; "visitAttribute"; "visitQualifier"; "visitIdentifier"; "visitRegexp"; "visitRegexp_pattern"; "visitRegexp_flag"]%string.
(** The methods [ExpressionTreeBuilder] overrides, parser.py:1028-1668 *)
Definition builder_methods : list pystr :=
  map u ["visitQuery"; "visitMain_query"; "visitQuery_disjunction"; "visitQuery_sequence"; "visitQuery_group"; "visitQuery_simple"; "visitQuery_implicit"; "visitQuery_segment"; "visitExpression_basic"; "visitExpression_not"; "visitExpression_group"; "visitExpression_or"; "visitExpression_and"; "visitAttribute"; "visitRegexp"; "visitWithin_part_simple"]%string.
