{
 "claims": [
  {
   "property": "C01",
   "status": "proved",
   "theorems": [
    "C01_parse_total",
    "C01_can_parse"
   ],
   "note": ""
  },
  {
   "property": "C02",
   "status": "proved",
   "theorems": [
    "C02_accepted_iff",
    "C02_meaningful_iff",
    "C02_denoted"
   ],
   "note": ""
  },
  {
   "property": "C03",
   "status": "proved",
   "theorems": [
    "C03_tiles",
    "C03_token_text",
    "C03_token_order"
   ],
   "note": ""
  },
  {
   "property": "C04",
   "status": "proved",
   "theorems": [
    "C04_longest_match",
    "C04_error",
    "C04_types"
   ],
   "note": ""
  },
  {
   "property": "C05",
   "status": "proved",
   "theorems": [
    "C05_white_space",
    "C05_boundaries"
   ],
   "note": ""
  },
  {
   "property": "C06",
   "status": "proved",
   "theorems": [
    "C06_quote_roundtrip"
   ],
   "note": ""
  },
  {
   "property": "C07",
   "status": "proved",
   "theorems": [
    "C07_decoding",
    "C07_unambiguous",
    "C07_literals",
    "C07_all_decoded"
   ],
   "note": ""
  },
  {
   "property": "C08",
   "status": "proved",
   "theorems": [
    "C08_refuted",
    "C08_exact"
   ],
   "note": "The naive contract (every listed escape usable) is false; C08_refuted refutes it, C08_exact gives the exact condition."
  },
  {
   "property": "C09",
   "status": "proved",
   "theorems": [
    "C09_numbers",
    "C09_quantifiers",
    "C09_unambiguous"
   ],
   "note": ""
  },
  {
   "property": "C10",
   "status": "proved",
   "theorems": [
    "C10_sane",
    "C10_rejected"
   ],
   "note": ""
  },
  {
   "property": "C11",
   "status": "proved",
   "theorems": [
    "C11_flags",
    "C11_order",
    "C11_consistent"
   ],
   "note": ""
  },
  {
   "property": "C12",
   "status": "proved",
   "theorems": [
    "C12_defaults",
    "C12_bare",
    "C12_module"
   ],
   "note": ""
  },
  {
   "property": "C13",
   "status": "proved",
   "theorems": [
    "C13_verbatim"
   ],
   "note": ""
  },
  {
   "property": "C14",
   "status": "proved",
   "theorems": [
    "C14_root",
    "C14_children",
    "C14_inner",
    "C14_scopes"
   ],
   "note": ""
  },
  {
   "property": "C15",
   "status": "proved",
   "theorems": [
    "C15_shape",
    "C15_root"
   ],
   "note": ""
  },
  {
   "property": "C16",
   "status": "proved",
   "theorems": [
    "C16_query",
    "C16_groups"
   ],
   "note": ""
  },
  {
   "property": "C17",
   "status": "proved",
   "theorems": [
    "C17_leaves"
   ],
   "note": ""
  },
  {
   "property": "C18",
   "status": "proved",
   "theorems": [
    "C18_or_in_and",
    "C18_always",
    "C18_refuted_and",
    "C18_refuted_not"
   ],
   "note": "The documented precedence is false of the code; refuted by concrete queries, with the part that always holds proved."
  },
  {
   "property": "C19",
   "status": "proved",
   "theorems": [
    "C19_exact",
    "C19_simple_levels"
   ],
   "note": ""
  },
  {
   "property": "C20",
   "status": "proved",
   "theorems": [
    "C20_parens"
   ],
   "note": ""
  },
  {
   "property": "C21",
   "status": "proved",
   "theorems": [
    "C21_locations"
   ],
   "note": ""
  },
  {
   "property": "C22",
   "status": "proved",
   "theorems": [
    "C22_source_text"
   ],
   "note": ""
  },
  {
   "property": "C23",
   "status": "proved",
   "theorems": [
    "C23_nested"
   ],
   "note": ""
  },
  {
   "property": "C24",
   "status": "proved",
   "theorems": [
    "C24_locations_only"
   ],
   "note": ""
  },
  {
   "property": "C25",
   "status": "proved",
   "theorems": [
    "C25_fresh",
    "C25_parents",
    "C25_succeeds"
   ],
   "note": ""
  },
  {
   "property": "C26",
   "status": "proved",
   "theorems": [
    "C26_reuse"
   ],
   "note": ""
  },
  {
   "property": "C27",
   "status": "proved",
   "theorems": [
    "C27_errors"
   ],
   "note": ""
  },
  {
   "property": "C28",
   "status": "proved",
   "theorems": [
    "C28_exact",
    "C28_in_bounds",
    "C28_out_of_bounds",
    "C28_refuted",
    "C28_count"
   ],
   "note": "Documented contract refuted at idx = child_count; exact behaviour proved."
  },
  {
   "property": "C29",
   "status": "proved",
   "theorems": [
    "C29_class",
    "C29_first"
   ],
   "note": ""
  },
  {
   "property": "C30",
   "status": "proved",
   "theorems": [
    "C30_last",
    "C30_exact",
    "C30_refuted"
   ],
   "note": "Documented contract refuted; exact behaviour proved."
  },
  {
   "property": "C31",
   "status": "proved",
   "theorems": [
    "C31_exact",
    "C31_parsed",
    "C31_first"
   ],
   "note": "get_within on a QueryWithWithin built without within raises IndexError; trees from parse always have it."
  },
  {
   "property": "C32",
   "status": "proved",
   "theorems": [
    "C32_predicates",
    "C32_flags"
   ],
   "note": ""
  },
  {
   "property": "C33",
   "status": "proved",
   "theorems": [
    "C33_exact",
    "C33_refuted"
   ],
   "note": "The predicates are inverted in the code; exact behaviour and refutation proved."
  },
  {
   "property": "C34",
   "status": "proved",
   "theorems": [
    "C34_exact",
    "C34_has_node_type",
    "C34_total",
    "C34_distinct",
    "C34_refuted"
   ],
   "note": "QueryGroup carries QUERY_SEGMENT; exact behaviour and refutation proved."
  },
  {
   "property": "C35",
   "status": "proved",
   "theorems": [
    "C35_loop",
    "C35_traversal",
    "C35_every_node",
    "C35_expressions",
    "C35_text_order"
   ],
   "note": ""
  },
  {
   "property": "C36",
   "status": "proved",
   "theorems": [
    "C36_exact",
    "C36_refuted",
    "C36_dispatched"
   ],
   "note": "Six adapter methods are unreachable; exact dispatch and refutation proved."
  },
  {
   "property": "C37",
   "status": "proved",
   "theorems": [
    "C37_collecting",
    "C37_compositional"
   ],
   "note": ""
  },
  {
   "property": "C38",
   "status": "proved",
   "theorems": [
    "C38_raising",
    "C38_raises"
   ],
   "note": ""
  },
  {
   "property": "C39",
   "status": "proved",
   "theorems": [
    "C39_verdict",
    "C39_is_valid",
    "C39_modes_agree"
   ],
   "note": ""
  },
  {
   "property": "C40",
   "status": "proved",
   "theorems": [
    "C40_reuse"
   ],
   "note": ""
  },
  {
   "property": "C41",
   "status": "proved",
   "theorems": [
    "C41_left_behind",
    "C41_blamed",
    "C41_adds_up",
    "C41_parent",
    "C41_refuted",
    "C41_balanced",
    "C41_unbalanced"
   ],
   "note": "Contract refuted for expressions below operators; the exact parent_node proved."
  },
  {
   "property": "C42",
   "status": "proved",
   "theorems": [
    "C42_exclusive",
    "C42_table",
    "C42_errors"
   ],
   "note": ""
  },
  {
   "property": "C43",
   "status": "proved",
   "theorems": [
    "C43_regex",
    "C43_insensitive"
   ],
   "note": ""
  },
  {
   "property": "C44",
   "status": "proved",
   "theorems": [
    "C44_pos"
   ],
   "note": ""
  },
  {
   "property": "C45",
   "status": "proved",
   "theorems": [
    "C45_agree",
    "C45_findings",
    "C45_syntax"
   ],
   "note": ""
  },
  {
   "property": "C46",
   "status": "proved",
   "theorems": [
    "C46_refines",
    "C46_monotone",
    "C46_exact"
   ],
   "note": ""
  },
  {
   "property": "C47",
   "status": "proved",
   "theorems": [
    "C47_positions"
   ],
   "note": ""
  },
  {
   "property": "C48",
   "status": "proved",
   "theorems": [
    "C48_lexical",
    "C48_one_line",
    "C48_grammatical",
    "C48_lexical_only",
    "C48_refuted",
    "C48_empty"
   ],
   "note": "Lexical errors report a column on their line, not an offset; exact positions and refutation proved. What ANTLR's error recovery reports is a parameter constrained only by env_ok, which C64 discharges."
  },
  {
   "property": "C49",
   "status": "proved",
   "theorems": [
    "C49_exact",
    "C49_exception",
    "C49_relation",
    "C49_sound",
    "C49_refuted"
   ],
   "note": "antlr_parse ignores lexical errors; exact condition and refutation proved."
  },
  {
   "property": "C50",
   "status": "proved",
   "theorems": [
    "C50_total",
    "C50_injective",
    "C50_refuted_backslash",
    "C50_refuted_quote"
   ],
   "note": "Injective on trees whose regexes are free of double quotes and backslashes; counterexamples otherwise."
  },
  {
   "property": "C51",
   "status": "proved",
   "theorems": [
    "C51_normalisation"
   ],
   "note": ""
  },
  {
   "property": "C52",
   "status": "proved",
   "theorems": [
    "C52_unique",
    "C52_methods",
    "C52_states",
    "C52_generated",
    "C52_rejects",
    "C52_terminates"
   ],
   "note": "FCSParser.py is modelled method by method; adaptivePredict is a parameter constrained to return the least alternative from which the (deserialised) network reads the rest of the input, where there is one; sync a parameter constrained to accept tokens that can come next."
  },
  {
   "property": "C53",
   "status": "proved",
   "theorems": [
    "C53_children",
    "C53_location",
    "C53_expression",
    "C53_blank"
   ],
   "note": ""
  },
  {
   "property": "C54",
   "status": "proved",
   "theorems": [
    "C54_decodes",
    "C54_lexer",
    "C54_parser",
    "C54_tokens",
    "C54_lexical_error",
    "C54_query"
   ],
   "note": ""
  },
  {
   "property": "C55",
   "status": "proved",
   "theorems": [
    "C55_decidable",
    "C55_prediction",
    "C55_language"
   ],
   "note": ""
  },
  {
   "property": "C56",
   "status": "proved",
   "theorems": [
    "C56_unique",
    "C56_accepted",
    "C56_exact",
    "C56_check"
   ],
   "note": ""
  },
  {
   "property": "C57",
   "status": "proved",
   "theorems": [
    "C57_accepted",
    "C57_roundtrip",
    "C57_writable",
    "C57_range",
    "C57_distinct"
   ],
   "note": ""
  },
  {
   "property": "C58",
   "status": "proved",
   "theorems": [
    "C58_part",
    "C58_level",
    "C58_group",
    "C58_sequence",
    "C58_alternatives",
    "C58_within"
   ],
   "note": ""
  },
  {
   "property": "C59",
   "status": "proved",
   "theorems": [
    "C59_results",
    "C59_errors",
    "C59_reuse",
    "C59_progress",
    "C59_alone",
    "C59_refuted"
   ],
   "note": ""
  },
  {
   "property": "C60",
   "status": "proved",
   "theorems": [
    "C60_accessors",
    "C60_always",
    "C60_walk",
    "C60_rebuild",
    "C60_visit",
    "C60_visit_value",
    "C60_names",
    "C60_literal_names"
   ],
   "note": ""
  },
  {
   "property": "C61",
   "status": "proved",
   "theorems": [
    "C61_prediction",
    "C61_range",
    "C61_sync",
    "C61_accepts",
    "C61_rejects",
    "C61_refuted_eager"
   ],
   "note": ""
  },
  {
   "property": "C62",
   "status": "proved",
   "theorems": [
    "C62_linear",
    "C62_brackets",
    "C62_documented",
    "C62_positive",
    "C62_tree",
    "C62_tree_result",
    "C62_deep_flat",
    "C62_three_per_bracket",
    "C62_all"
   ],
   "note": ""
  },
  {
   "property": "C63",
   "status": "proved",
   "theorems": [
    "C63_meaning",
    "C63_equal"
   ],
   "note": ""
  },
  {
   "property": "C64",
   "status": "proved",
   "theorems": [
    "C64_terminates",
    "C64_reports",
    "C64_tokens",
    "C64_count",
    "C64_lexical",
    "C64_syntactic",
    "C64_after_lexical",
    "C64_contract",
    "C64_listener",
    "C64_message",
    "C64_lexical_first",
    "C64_raises",
    "C64_antlr_parse",
    "C64_order_refuted"
   ],
   "note": ""
  },
  {
   "property": "C65",
   "status": "proved",
   "theorems": [
    "C65_place",
    "C65_parse",
    "C65_not_late",
    "C65_antlr_parse",
    "C65_exact_refuted"
   ],
   "note": ""
  },
  {
   "property": "C66",
   "status": "proved",
   "theorems": [
    "C66_unambiguous",
    "C66_message",
    "C66_usable"
   ],
   "note": ""
  },
  {
   "property": "C67",
   "status": "proved",
   "theorems": [
    "C67_template",
    "C67_any_text",
    "C67_refuted_unquoted"
   ],
   "note": ""
  },
  {
   "property": "C68",
   "status": "proved",
   "theorems": [
    "C68_result",
    "C68_tree",
    "C68_most"
   ],
   "note": ""
  },
  {
   "property": "C69",
   "status": "proved",
   "theorems": [
    "C69_exact",
    "C69_result",
    "C69_interval"
   ],
   "note": ""
  },
  {
   "property": "C70",
   "status": "proved",
   "theorems": [
    "C70_tokens",
    "C70_maps",
    "C70_insert",
    "C70_leading",
    "C70_trailing"
   ],
   "note": ""
  },
  {
   "property": "C71",
   "status": "proved",
   "theorems": [
    "C71_results",
    "C71_unharmed",
    "C71_progress"
   ],
   "note": ""
  },
  {
   "property": "C72",
   "status": "proved",
   "theorems": [
    "C72_verdict",
    "C72_same",
    "C72_complaints",
    "C72_insert",
    "C72_alternatives",
    "C72_sequence",
    "C72_group",
    "C72_within",
    "C72_part"
   ],
   "note": ""
  },
  {
   "property": "C73",
   "status": "proved",
   "theorems": [
    "C73_reporting",
    "C73_predictions",
    "C73_inputs",
    "C73_quadratic"
   ],
   "note": ""
  },
  {
   "property": "C74",
   "status": "proved",
   "theorems": [
    "C74_ascii",
    "C74_equal",
    "C74_text"
   ],
   "note": ""
  },
  {
   "property": "C75",
   "status": "proved",
   "theorems": [
    "C75_wordings",
    "C75_same_tree",
    "C75_verdict",
    "C75_complaints",
    "C75_written",
    "C75_decided"
   ],
   "note": ""
  },
  {
   "property": "C76",
   "status": "proved",
   "theorems": [
    "C76_trees",
    "C76_same",
    "C76_rejected",
    "C76_verdict",
    "C76_complaints"
   ],
   "note": ""
  },
  {
   "property": "C77",
   "status": "proved",
   "theorems": [
    "C77_shape",
    "C77_same_shape",
    "C77_accepted",
    "C77_antlr"
   ],
   "note": ""
  }
 ]
}