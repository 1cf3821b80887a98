{
 "claims": [
  {
   "property": "C01",
   "status": "proved",
   "theorems": [
    "C01_position_stays_in_text",
    "C01_new_scanner_in_text",
    "C01_fold_panics"
   ],
   "note": "All public Scanner operations; programs are arbitrary sequences with branching and markers of the text. IfFold, RevIfFold and RevToFold are the operations excluded from panic freedom; C01_fold_panics shows they do panic. While is excluded from termination only."
  },
  {
   "property": "C02",
   "status": "partial",
   "theorems": [
    "C02_to_marker_refuted",
    "C02_to_marker_exact"
   ],
   "note": "False as stated: ToMarker (scanner.go) accepts every marker because its guard uses && instead of ||. Refuted, with the exact behaviour (any later access to the text panics)."
  },
  {
   "property": "C03",
   "status": "proved",
   "theorems": [
    "C03_move_exact"
   ],
   "note": ""
  },
  {
   "property": "C04",
   "status": "proved",
   "theorems": [
    "C04_scope",
    "C04_trace",
    "C04_tokenize",
    "C04_capture",
    "C04_use",
    "C04_trace_use",
    "C04_tokenize_use",
    "C04_capture_use"
   ],
   "note": ""
  },
  {
   "property": "C05",
   "status": "proved",
   "theorems": [
    "C05_if",
    "C05_if_any",
    "C05_rev_if",
    "C05_rev_if_any"
   ],
   "note": ""
  },
  {
   "property": "C06",
   "status": "proved",
   "theorems": [
    "C06_to_first_occurrence"
   ],
   "note": ""
  },
  {
   "property": "C07",
   "status": "partial",
   "theorems": [
    "C07_rev_to_refuted",
    "C07_rev_to_partial",
    "C07_rev_to_exact",
    "C07_split_exists"
   ],
   "note": "False as stated: an ill-formed byte or U+FFFD before the position hides every earlier occurrence. Proved for valid UTF-8 without U+FFFD; C07_rev_to_exact describes all texts."
  },
  {
   "property": "C08",
   "status": "partial",
   "theorems": [
    "C08_fold_refuted",
    "C08_if_fold_exact",
    "C08_rev_if_fold_exact",
    "C08_to_fold",
    "C08_rev_to_fold_exact"
   ],
   "note": "False as stated: IfFold, RevIfFold, RevToFold slice past the text and panic. Exact behaviour proved, ToFold in full."
  },
  {
   "property": "C09",
   "status": "partial",
   "theorems": [
    "C09_if_match",
    "C09_if_between",
    "C09_if_rune_partial",
    "C09_if_any_rune_partial",
    "C09_if_rune_at_end",
    "C09_if_any_rune_at_end",
    "C09_if_rune_refuted",
    "C09_if_any_rune_refuted"
   ],
   "note": "IfMatch and IfBetween in full; IfRune and IfAnyRune answer yes at the end of the text when U+FFFD is asked for (refuted; the exception is exactly that case)."
  },
  {
   "property": "C10",
   "status": "proved",
   "theorems": [
    "C10_to_rune",
    "C10_to_any_rune",
    "C10_to_between",
    "C10_to_match"
   ],
   "note": ""
  },
  {
   "property": "C11",
   "status": "partial",
   "theorems": [
    "C11_while_rune_refuted",
    "C11_while_between_refuted",
    "C11_while_any_rune_refuted",
    "C11_while_match_refuted",
    "C11_while_rune_exact",
    "C11_while_between_exact",
    "C11_while_any_rune_exact",
    "C11_while_match_exact",
    "C11_max_run_exists"
   ],
   "note": "False as stated for all four While* operations; exact behaviour proved."
  },
  {
   "property": "C12",
   "status": "partial",
   "theorems": [
    "C12_rev_if_rune_exact",
    "C12_rev_if_any_rune_exact",
    "C12_rev_if_between_exact",
    "C12_rev_if_match_exact",
    "C12_rev_if_between_refuted",
    "C12_rev_if_match_refuted"
   ],
   "note": "RevIfBetween and RevIfMatch are inverted (refuted, exact behaviour proved). RevIfRune and RevIfAnyRune are right except for U+FFFD at the start of the text."
  },
  {
   "property": "C13",
   "status": "proved",
   "theorems": [
    "C13_rev_to_rune",
    "C13_rev_to_any_rune",
    "C13_rev_to_between",
    "C13_rev_to_match",
    "C13_rev_while_rune",
    "C13_rev_while_any_rune",
    "C13_rev_while_between",
    "C13_rev_while_match"
   ],
   "note": ""
  },
  {
   "property": "C14",
   "status": "partial",
   "theorems": [
    "C14_ill_formed_byte_refuted",
    "C14_move_runes_forward",
    "C14_move_runes_forward_no",
    "C14_move_runes_back",
    "C14_move_runes_back_no",
    "C14_move_runes_zero",
    "C14_move_runes_inverse",
    "C14_move_runes_any"
   ],
   "note": "Everything except the sentence about ill-formed bytes, which is false (an ill-formed byte is passed as three bytes)."
  },
  {
   "property": "C15",
   "status": "partial",
   "theorems": [
    "C15_scan_string_refuted",
    "C15_scan_string_exact",
    "C15_scan_string_no_exact"
   ],
   "note": "False when exactly n runes are left: ScanString fails there. Proved when more than n runes are left; exact failure behaviour proved."
  },
  {
   "property": "C16",
   "status": "proved",
   "theorems": [
    "C16_walk_forward",
    "C16_walk_backward",
    "C16_read_then_rev_read",
    "C16_read_rune_fails",
    "C16_rev_read_rune_fails"
   ],
   "note": ""
  },
  {
   "property": "C17",
   "status": "proved",
   "theorems": [
    "C17_line_col",
    "C17_column_that_fits"
   ],
   "note": ""
  },
  {
   "property": "C18",
   "status": "proved",
   "theorems": [
    "C18_read_int",
    "C18_split_exists"
   ],
   "note": ""
  },
  {
   "property": "C19",
   "status": "proved",
   "theorems": [
    "C19_read_uint",
    "C19_split_exists"
   ],
   "note": ""
  },
  {
   "property": "C20",
   "status": "partial",
   "theorems": [
    "C20_read_uint_refuted",
    "C20_read_int_refuted",
    "C20_read_uint_partial",
    "C20_read_int_partial",
    "C20_read_uint_mod",
    "C20_read_int_mod"
   ],
   "note": "False: both 64 bit reads can wrap around unnoticed. The value is the value of the digits modulo 2^64, and it is right whenever the number standing there fits."
  },
  {
   "property": "C21",
   "status": "proved",
   "theorems": [
    "C21_print_read_uint",
    "C21_print_read_int"
   ],
   "note": ""
  },
  {
   "property": "C22",
   "status": "proved",
   "theorems": [
    "C22_read_uint",
    "C22_read_int",
    "C22_read_bool",
    "C22_read_rune",
    "C22_rev_read_rune"
   ],
   "note": ""
  },
  {
   "property": "C23",
   "status": "proved",
   "theorems": [
    "C23_read_bool",
    "C23_read_bool_format"
   ],
   "note": ""
  },
  {
   "property": "C24",
   "status": "proved",
   "theorems": [
    "C24_tokens_ordered"
   ],
   "note": "Len is Go int subtraction; it equals the interval length whenever that fits into an int (theorem states the bound)."
  },
  {
   "property": "C25",
   "status": "proved",
   "theorems": [
    "C25_token_relations"
   ],
   "note": ""
  },
  {
   "property": "C26",
   "status": "proved",
   "theorems": [
    "C26_merge_smallest_cover"
   ],
   "note": ""
  },
  {
   "property": "C27",
   "status": "proved",
   "theorems": [
    "C27_split_without_loss",
    "C27_segment_split"
   ],
   "note": ""
  },
  {
   "property": "C28",
   "status": "proved",
   "theorems": [
    "C28_segmentate_succeeds_iff",
    "C28_segmentate_tiles",
    "C28_scanner_segmentate_covers_text"
   ],
   "note": ""
  },
  {
   "property": "C29",
   "status": "proved",
   "theorems": [
    "C29_sort_segments_permutes",
    "C29_sort_segments_covering_first"
   ],
   "note": ""
  },
  {
   "property": "C30",
   "status": "partial",
   "theorems": [
    "C30_sort_segments_stable_refuted",
    "C30_sort_segments_reverses_exact"
   ],
   "note": "False: the comparison of SortSegments is reflexive, so segments with equal tokens come out in exactly reversed order (proved)."
  },
  {
   "property": "C31",
   "status": "proved",
   "theorems": [
    "C31_by_order_permutes",
    "C31_by_order_sorted",
    "C31_by_order_stable"
   ],
   "note": ""
  },
  {
   "property": "C32",
   "status": "proved",
   "theorems": [
    "C32_append_accepts_iff_no_clash"
   ],
   "note": ""
  },
  {
   "property": "C33",
   "status": "proved",
   "theorems": [
    "C33_refused_append_changes_nothing"
   ],
   "note": ""
  },
  {
   "property": "C34",
   "status": "proved",
   "theorems": [
    "C34_graph_is_faithful_nesting",
    "C34_build_graph"
   ],
   "note": ""
  },
  {
   "property": "C35",
   "status": "proved",
   "theorems": [
    "C35_shape_independent_of_order",
    "C35_build_graph_independent_of_order",
    "C35_equal_tokens_depend_on_order",
    "C35_empty_tokens_depend_on_order"
   ],
   "note": "Theorems C35_equal_tokens_depend_on_order and C35_empty_tokens_depend_on_order show that both hypotheses are needed."
  },
  {
   "property": "C36",
   "status": "proved",
   "theorems": [
    "C36_leafs",
    "C36_leafs_sorted",
    "C36_equal_is_equality",
    "C36_flame_stack"
   ],
   "note": ""
  },
  {
   "property": "C37",
   "status": "proved",
   "theorems": [
    "C37_reads_forward_inside_text",
    "C37_no_panic",
    "C37_fold_and_nil_rule_panic"
   ],
   "note": "Readers without Wrap anywhere. Panic freedom excludes exactly Fold and rules without Reader, both shown to panic."
  },
  {
   "property": "C38",
   "status": "proved",
   "theorems": [
    "C38_failing_readers_do_not_consume",
    "C38_times_consumes"
   ],
   "note": "restoring is the syntactic condition 'no Times(k>=2) in pass-through position'; C38_times_consumes gives the exact position where Times stops."
  },
  {
   "property": "C39",
   "status": "proved",
   "theorems": [
    "C39_any_is_ordered_choice",
    "C39_tried_at_same_position"
   ],
   "note": "For all readers; C39_tried_at_same_position adds the condition of the statement (readers that do not consume on failure)."
  },
  {
   "property": "C40",
   "status": "proved",
   "theorems": [
    "C40_seq_is_all_or_nothing",
    "C40_skip_seq_is_interleaved_seq"
   ],
   "note": ""
  },
  {
   "property": "C41",
   "status": "proved",
   "theorems": [
    "C41_zom_is_greedy",
    "C41_many_is_greedy",
    "C41_position"
   ],
   "note": ""
  },
  {
   "property": "C42",
   "status": "proved",
   "theorems": [
    "C42_json_unterminated_string",
    "C42_repetition_hangs",
    "C42_hangs_at_end"
   ],
   "note": "General statement, the named readers, and JSON() on an unterminated string."
  },
  {
   "property": "C43",
   "status": "partial",
   "theorems": [
    "C43_past_terminates_refuted",
    "C43_terminate_partial",
    "C43_to_terminates",
    "C43_hang_on_ill_formed"
   ],
   "note": "False as stated: Past(Times(2, \"\\xC3\")) on valid text stops inside a rune and hangs. Proved when the tail reader, failing, stands in front of a rune again; To in full for every text; hanging on ill-formed text proved."
  },
  {
   "property": "C44",
   "status": "partial",
   "theorems": [
    "C44_at_is_lookahead",
    "C44_not_exact",
    "C44_not_moves_one_rune_refuted"
   ],
   "note": "At in full. Not does not move at the end of the text (refuted); exact behaviour proved, including ill-formed bytes."
  },
  {
   "property": "C45",
   "status": "proved",
   "theorems": [
    "C45_to_finds_leftmost",
    "C45_past_finds_leftmost",
    "C45_not_found"
   ],
   "note": "State-independent reader = acts: result and end position are a function of the position."
  },
  {
   "property": "C46",
   "status": "proved",
   "theorems": [
    "C46_body_delimits",
    "C46_no_tail"
   ],
   "note": ""
  },
  {
   "property": "C47",
   "status": "partial",
   "theorems": [
    "C47_janus_begin_exact",
    "C47_janus_end_exact",
    "C47_keeps_expecting_refuted"
   ],
   "note": "First half in full. Second half false: the end reader forgets the string on its own success even if the construct around it fails (refuted); exact behaviour of both readers proved."
  },
  {
   "property": "C48",
   "status": "proved",
   "theorems": [
    "C48_opt_never_fails",
    "C48_named_and_rule_are_transparent",
    "C48_rule_name_replaces_error",
    "C48_same_divergence"
   ],
   "note": ""
  },
  {
   "property": "C49",
   "status": "proved",
   "theorems": [
    "C49_monitor_is_transparent"
   ],
   "note": ""
  },
  {
   "property": "C50",
   "status": "proved",
   "theorems": [
    "C50_pick_map_tracker_transparent",
    "C50_static_condition"
   ],
   "note": "picks_fit is the hypothesis of the statement; C50_static_condition gives a syntactic criterion."
  },
  {
   "property": "C51",
   "status": "proved",
   "theorems": [
    "C51_picked_segments_are_consistent"
   ],
   "note": "Readers without Wrap, and without Pick into the basket below Body/BodyTail (C54 shows what happens there). C53_unordered_basket and C54_refuted show that the conditions matter."
  },
  {
   "property": "C52",
   "status": "partial",
   "theorems": [
    "C52_failed_use_refuted",
    "C52_failed_use_exact",
    "C52_failed_use_partial"
   ],
   "note": "False as stated: a picked segment of width 0 at the position gone back to survives. C52 exact: precisely the segments ending behind the position are removed, by every move; the statement holds for non-empty segments."
  },
  {
   "property": "C53",
   "status": "proved",
   "theorems": [
    "C53_update_forgets_what_ends_behind",
    "C53_unordered_basket"
   ],
   "note": ""
  },
  {
   "property": "C54",
   "status": "partial",
   "theorems": [
    "C54_picked_positions_refer_to_text_partial",
    "C54_refuted",
    "C54_cut_out_literals",
    "C54_pick_adds_what_it_read"
   ],
   "note": "False as stated for Pick below Body/BodyTail (their segments are relative to the scanner of the body). Proved without those."
  },
  {
   "property": "C55",
   "status": "partial",
   "theorems": [
    "C55_map_refuted",
    "C55_map_calls_exact",
    "C55_calls_stem_from_reads_partial"
   ],
   "note": "False as stated: Map also calls its function for reads that are undone by an enclosing reader later. Exact: one call per successful sub Read, at its end, with its token; every call stems from a Read inside the text."
  },
  {
   "property": "C56",
   "status": "partial",
   "theorems": [
    "C56_reads_only_add_entries",
    "C56_new_log_ok",
    "C56_unmonitored_reads_add_nothing",
    "C56_monitored_read_exact",
    "C56_log_refuted"
   ],
   "note": "False as stated: ExitAt and Error of an entry are lost when append moves the entries while the sub reader runs (refuted for every growth policy). Names, positions, levels, order and count proved; exact condition for ExitAt and Error."
  },
  {
   "property": "C57",
   "status": "proved",
   "theorems": [
    "C57_constructors",
    "C57_invalid_fails",
    "C57_marker_is_visible",
    "C57_names_hide"
   ],
   "note": "C57_names_hide: Named and Rule show their name instead, so the marker is hidden there (not claimed by the statement)."
  },
  {
   "property": "C58",
   "status": "partial",
   "theorems": [
    "C58_between_any",
    "C58_build_between_any",
    "C58_set_partial",
    "C58_set_invalid",
    "C58_set_refuted"
   ],
   "note": "BetweenAny and BuildBetweenAny in full. Set succeeds at the end of the text if U+FFFD is among the singles (refuted); proved in all other cases."
  },
  {
   "property": "C59",
   "status": "partial",
   "theorems": [
    "C59_check_rule_name_refuted",
    "C59_check_rule_name_exact",
    "C59_valid_names_accepted_partial"
   ],
   "note": "False as stated: CheckRuleName accepts every text that begins with a letter (refuted; exact behaviour proved). That valid names are accepted is proved."
  },
  {
   "property": "C60",
   "status": "partial",
   "theorems": [
    "C60_set_rule_names",
    "C60_set_rule_names_stops",
    "C60_set_rule_names_panics",
    "C60_set_rule_names_cases",
    "C60_collect_rules",
    "C60_collect_rules_panics",
    "C60_collect_rules_refuted",
    "C60_check_rules",
    "C60_must_check_rules"
   ],
   "note": "SetRuleNames and CheckRules in full. False for structs with unexported fields, where CollectRules panics (refuted); proved for all others."
  },
  {
   "property": "C61",
   "status": "proved",
   "theorems": [
    "C61_json_sound"
   ],
   "note": "Soundness at byte level: a success has consumed a JSON element."
  },
  {
   "property": "C62",
   "status": "proved",
   "theorems": [
    "C62_json_complete",
    "C62_json_complete_in_text",
    "C62_json_recognises"
   ],
   "note": "Completeness: whole texts, elements followed by other text, and recognition as an equivalence. Texts shorter than 2^63 bytes, as for every scanner."
  },
  {
   "property": "C63",
   "status": "partial",
   "theorems": [
    "C63_json_terminates_refuted",
    "C63_json_hangs_exact",
    "C63_json_terminates_partial",
    "C63_json_no_panic"
   ],
   "note": "False as stated: texts that break off inside a string are read forever (refuted). Exactly these hang (C63_json_hangs_exact); all others return; no panic."
  },
  {
   "property": "C64",
   "status": "partial",
   "theorems": [
    "C64_clean_grammars_independent",
    "C64_json_independent_partial",
    "C64_lua_independent_partial",
    "C64_mxt_refuted"
   ],
   "note": "False for MXT: the salt of an earlier text survives in the Janus pair (refuted). Proved for JSON, Lua and every grammar whose Janus ends follow their beginnings."
  },
  {
   "property": "C65",
   "status": "partial",
   "theorems": [
    "C65_long_bracket_refuted",
    "C65_ill_formed_refuted",
    "C65_long_bracket_partial",
    "C65_long_bracket_exact",
    "C65_no_bracket"
   ],
   "note": "False as stated: a bracket followed by the equal signs of the level inside the string makes the reader forget the level (refuted), and on ill-formed text Past may step over the closing bracket (refuted). Exact on well-formed text in C65_long_bracket_exact; true at level 0 and whenever no such near miss precedes the closing bracket."
  },
  {
   "property": "C66",
   "status": "partial",
   "theorems": [
    "C66_binop_refuted",
    "C66_binop_partial",
    "C66_binop_exact"
   ],
   "note": "False as stated: //, << and >> are read by their first byte (refuted). Exact in C66_binop_exact; true for all other operators."
  },
  {
   "property": "C67",
   "status": "proved",
   "theorems": [
    "C67_mxt_returns",
    "C67_mxt_returns_fresh",
    "C67_mxt_hangs"
   ],
   "note": "Returns on every well-formed text, via a certificate for the grammar and a general totality theorem; hangs on a family of ill-formed texts."
  },
  {
   "property": "C68",
   "status": "proved",
   "theorems": [
    "C68_certified_grammars_return",
    "C68_on_every_text"
   ],
   "note": "Soundness of the check (certifies); MXT, Lua and a small recursive grammar are instances."
  },
  {
   "property": "C69",
   "status": "proved",
   "theorems": [
    "C69_lua_returns",
    "C69_lua_hangs",
    "C69_lua_no_panic"
   ],
   "note": "Instance of C68 plus independence of earlier reads (C64); the hang is shown for every name, both quotes and all contents."
  },
  {
   "property": "C70",
   "status": "proved",
   "theorems": [
    "C70_name_longest",
    "C70_name_read"
   ],
   "note": ""
  },
  {
   "property": "C71",
   "status": "proved",
   "theorems": [
    "C71_numeral_longest"
   ],
   "note": "Longest match against a grammar of numerals stated without the readers."
  },
  {
   "property": "C72",
   "status": "partial",
   "theorems": [
    "C72_lua54_numerals_refuted",
    "C72_dots_refuted",
    "C72_lua54_numerals_exact",
    "C72_lua54_numerals_partial"
   ],
   "note": "False as stated: 3. and .5 and 0x.8 are not read completely (refuted). Exactly the numerals with digits on both sides of the dot are; whatever is read is a numeral of Lua 5.4."
  },
  {
   "property": "C73",
   "status": "proved",
   "theorems": [
    "C73_quoted_string",
    "C73_quoted_string_exact"
   ],
   "note": "Contents are bytes; ill-formed bytes count as plain characters. Decimal escapes are read by their first digit, the others are then plain."
  },
  {
   "property": "C74",
   "status": "proved",
   "theorems": [
    "C74_long_comment",
    "C74_line_comment",
    "C74_no_comment"
   ],
   "note": "An unclosed long comment is read as a line comment; a line comment at the end of the text without newline is not read."
  },
  {
   "property": "C75",
   "status": "proved",
   "theorems": [
    "C02_to_marker_exact"
   ],
   "note": "The exact behaviour behind C02."
  },
  {
   "property": "C76",
   "status": "proved",
   "theorems": [
    "C07_rev_to_exact",
    "C07_split_exists"
   ],
   "note": "The exact behaviour behind C07; C07_split_exists shows that the split used there exists for every text."
  },
  {
   "property": "C77",
   "status": "proved",
   "theorems": [
    "C08_if_fold_exact",
    "C08_rev_if_fold_exact",
    "C08_to_fold",
    "C08_rev_to_fold_exact"
   ],
   "note": "The exact behaviour behind C08."
  },
  {
   "property": "C78",
   "status": "proved",
   "theorems": [
    "C09_if_rune_partial",
    "C09_if_any_rune_partial",
    "C09_if_rune_at_end",
    "C09_if_any_rune_at_end"
   ],
   "note": "The exact behaviour behind C09: the two theorems named partial cover all but the end of the text, the others that."
  },
  {
   "property": "C79",
   "status": "proved",
   "theorems": [
    "C11_while_rune_exact",
    "C11_while_between_exact",
    "C11_while_any_rune_exact",
    "C11_while_match_exact",
    "C11_max_run_exists"
   ],
   "note": "The exact behaviour behind C11."
  },
  {
   "property": "C80",
   "status": "proved",
   "theorems": [
    "C12_rev_if_rune_exact",
    "C12_rev_if_any_rune_exact",
    "C12_rev_if_between_exact",
    "C12_rev_if_match_exact"
   ],
   "note": "The exact behaviour behind C12."
  },
  {
   "property": "C81",
   "status": "proved",
   "theorems": [
    "C14_move_runes_any"
   ],
   "note": "The exact behaviour behind C14."
  },
  {
   "property": "C82",
   "status": "proved",
   "theorems": [
    "C15_scan_string_exact",
    "C15_scan_string_no_exact"
   ],
   "note": "The exact behaviour behind C15."
  },
  {
   "property": "C83",
   "status": "proved",
   "theorems": [
    "C20_read_uint_mod",
    "C20_read_int_mod"
   ],
   "note": "The exact behaviour behind C20."
  },
  {
   "property": "C84",
   "status": "proved",
   "theorems": [
    "C30_sort_segments_reverses_exact"
   ],
   "note": "The exact behaviour behind C30."
  },
  {
   "property": "C85",
   "status": "proved",
   "theorems": [
    "C43_terminate_partial",
    "C43_to_terminates",
    "C43_hang_on_ill_formed"
   ],
   "note": "What holds of C43."
  },
  {
   "property": "C86",
   "status": "proved",
   "theorems": [
    "C44_not_exact"
   ],
   "note": "The exact behaviour behind C44."
  },
  {
   "property": "C87",
   "status": "proved",
   "theorems": [
    "C47_janus_begin_exact",
    "C47_janus_end_exact"
   ],
   "note": "The exact behaviour behind C47."
  },
  {
   "property": "C88",
   "status": "proved",
   "theorems": [
    "C52_failed_use_exact"
   ],
   "note": "The exact behaviour behind C52."
  },
  {
   "property": "C89",
   "status": "proved",
   "theorems": [
    "C54_picked_positions_refer_to_text_partial",
    "C54_cut_out_literals",
    "C54_pick_adds_what_it_read"
   ],
   "note": "What holds of C54."
  },
  {
   "property": "C90",
   "status": "proved",
   "theorems": [
    "C55_map_calls_exact",
    "C55_calls_stem_from_reads_partial"
   ],
   "note": "The exact behaviour behind C55."
  },
  {
   "property": "C91",
   "status": "proved",
   "theorems": [
    "C56_monitored_read_exact",
    "C56_reads_only_add_entries",
    "C56_new_log_ok",
    "C56_unmonitored_reads_add_nothing"
   ],
   "note": "The exact behaviour behind C56."
  },
  {
   "property": "C92",
   "status": "proved",
   "theorems": [
    "C59_check_rule_name_exact"
   ],
   "note": "The exact behaviour behind C59."
  },
  {
   "property": "C93",
   "status": "proved",
   "theorems": [
    "C60_collect_rules",
    "C60_collect_rules_panics"
   ],
   "note": "The exact behaviour behind C60."
  },
  {
   "property": "C94",
   "status": "proved",
   "theorems": [
    "C63_json_hangs_exact",
    "C63_json_terminates_partial"
   ],
   "note": "The exact behaviour behind C63."
  },
  {
   "property": "C95",
   "status": "proved",
   "theorems": [
    "C64_clean_grammars_independent"
   ],
   "note": "What holds of C64."
  },
  {
   "property": "C96",
   "status": "proved",
   "theorems": [
    "C65_long_bracket_exact",
    "C65_no_bracket"
   ],
   "note": "The exact behaviour behind C65."
  },
  {
   "property": "C97",
   "status": "proved",
   "theorems": [
    "C66_binop_exact"
   ],
   "note": "The exact behaviour behind C66."
  },
  {
   "property": "C98",
   "status": "partial",
   "theorems": [
    "C98_preview_exact",
    "C98_preview_of_ascii_partial",
    "C98_preview_refuted"
   ],
   "note": "Refuted: EnterAt is a byte offset, subStringFrom takes a rune index. Exact behaviour for all texts, and right if all text before EnterAt is ASCII."
  },
  {
   "property": "C99",
   "status": "proved",
   "theorems": [
    "C99_new_basket_for",
    "C99_picked_grammar_reads_the_same",
    "C99_segments_are_reads_of_the_rules",
    "C99_start_rule_is_last"
   ],
   "note": "JSON and Lua meet the hypotheses for all rules, MXT for all but WordChar (see C104)."
  },
  {
   "property": "C100",
   "status": "proved",
   "theorems": [
    "C100_monitor_grammar",
    "C100_names_stay",
    "C100_rule_without_reader",
    "C100_monitored_grammar_reads_the_same",
    "C100_entries_are_reads_of_the_rules"
   ],
   "note": "JSON, MXT and Lua meet the hypotheses."
  },
  {
   "property": "C101",
   "status": "proved",
   "theorems": [
    "C101_leafs_segmentate_the_text"
   ],
   "note": ""
  },
  {
   "property": "C102",
   "status": "proved",
   "theorems": [
    "C102_basket_is_the_parse",
    "C102_basket_exact",
    "C102_failed_use_picks_nothing"
   ],
   "note": "Gather.v is the semantics of the parse; C102_basket_exact drops the hypothesis on empty matches (Marks.v)."
  },
  {
   "property": "C103",
   "status": "proved",
   "theorems": [
    "C103_calls_and_entries_exact",
    "C103_every_trace_happens"
   ],
   "note": "Trace.v is the semantics of the search."
  },
  {
   "property": "C104",
   "status": "partial",
   "theorems": [
    "C104_basket_for_mxt_refuted",
    "C104_basket_for_mxt_partial"
   ],
   "note": "Refuted: WordChar is read below BodyTail on a scanner of its own, its segments have relative positions. Holds for every choice of rules without WordChar."
  },
  {
   "property": "C105",
   "status": "proved",
   "theorems": [
    "C105_mxt_reads_the_chunks",
    "C105_rest_is_unique",
    "C105_mxt_file"
   ],
   "note": "SpecMxt.v is the byte level description."
  },
  {
   "property": "C106",
   "status": "proved",
   "theorems": [
    "C106_written_file_is_read"
   ],
   "note": ""
  },
  {
   "property": "C107",
   "status": "proved",
   "theorems": [
    "C107_graph_rebuilds_the_forest"
   ],
   "note": ""
  },
  {
   "property": "C108",
   "status": "proved",
   "theorems": [
    "C108_basket_of_json",
    "C108_every_json_text",
    "C108_tree_is_unique"
   ],
   "note": "SpecTree.v is the tree of a JSON text."
  },
  {
   "property": "C109",
   "status": "proved",
   "theorems": [
    "C109_json_stack_shows_the_tree",
    "C109_json_stack_takes_every_json_file"
   ],
   "note": "JSON() and so the demo accept a JSON text followed by anything; hanging of JSON() on unterminated strings is C63."
  },
  {
   "property": "C110",
   "status": "proved",
   "theorems": [
    "C98_preview_exact"
   ],
   "note": "The exact behaviour behind C98."
  },
  {
   "property": "C111",
   "status": "proved",
   "theorems": [
    "C111_basket_of_mxt_rules"
   ],
   "note": "What holds of C104."
  },
  {
   "property": "C112",
   "status": "proved",
   "theorems": [
    "C112_reads_its_language",
    "C112_uses_its_language"
   ],
   "note": "The language puts no condition on what follows; steadiness is needed (C112_steadiness_is_needed)."
  },
  {
   "property": "C113",
   "status": "proved",
   "theorems": [
    "C113_rules_read_lua",
    "C113_lua_reads_chunks",
    "C113_lua_file"
   ],
   "note": "Tokens may stand together and keywords may be names: see C114. What is not read is C115."
  },
  {
   "property": "C114",
   "status": "partial",
   "theorems": [
    "C114_lua_lexes_refuted"
   ],
   "note": "Refuted: gotox is read as goto x, and end=1 is read. What holds is C113_lua_file."
  },
  {
   "property": "C115",
   "status": "partial",
   "theorems": [
    "C115_reads_every_chunk_refuted",
    "C115_room_refuted"
   ],
   "note": "Refuted: a table like {1, 2} with a space behind the comma is not read, while {1,2} is (FieldList and NameList use Seq, not SkipSeq). Programs that are read: C124."
  },
  {
   "property": "C116",
   "status": "proved",
   "theorems": [
    "C116_basket_holds_words"
   ],
   "note": "Over C112; steadiness is needed as there."
  },
  {
   "property": "C117",
   "status": "proved",
   "theorems": [
    "C117_basket_of_lua"
   ],
   "note": "Phrases as in C113."
  },
  {
   "property": "C118",
   "status": "proved",
   "theorems": [
    "C118_lua_never_fails",
    "C118_full_lua_stack"
   ],
   "note": "The calls the demo makes after reading the file; termination is C69."
  },
  {
   "property": "C119",
   "status": "partial",
   "theorems": [
    "C119_lua_rejects_refuted"
   ],
   "note": "Refuted: Lua() never fails (C118_lua_never_fails); an ill-formed program is read as an empty or shorter chunk."
  },
  {
   "property": "C120",
   "status": "partial",
   "theorems": [
    "C120_numerals_are_picked_refuted",
    "C120_unused_rules_exact"
   ],
   "note": "Refuted: FinalExp uses LuaNumeral() and not the rule Numeral. Exact: SheBang, Numeral and Script are never picked through Lua()."
  },
  {
   "property": "C121",
   "status": "proved",
   "theorems": [
    "C121_bool",
    "C121_int",
    "C121_uint",
    "C121_printed_int",
    "C121_printed_uint",
    "C121_unsupported"
   ],
   "note": "64 bit reads may wrap around (C20, C83); printed 64 bit numbers are covered here."
  },
  {
   "property": "C122",
   "status": "proved",
   "theorems": [
    "C122_lit",
    "C122_fold",
    "C122_at_end",
    "C122_one_rune",
    "C122_at_the_end"
   ],
   "note": "For U+FFFD at the end see C122_at_the_end."
  },
  {
   "property": "C123",
   "status": "proved",
   "theorems": [
    "C123_holey",
    "C123_digit",
    "C123_hex_digit",
    "C123_ws",
    "C123_nl",
    "C123_any_fold"
   ],
   "note": "The end of the text for Holey is the quirk of C42/C63."
  },
  {
   "property": "C124",
   "status": "proved",
   "theorems": [
    "C124_style_is_read",
    "C124_style_file",
    "C124_style_is_lua"
   ],
   "note": "The style is an inductive definition in SpecLuaStyle.v that does not refer to the readers. Long strings, comments and the operators // >> << are not in it."
  },
  {
   "property": "C125",
   "status": "partial",
   "theorems": [
    "C125_return_refuted",
    "C125_until_refuted",
    "C125_elseif_refuted",
    "C125_function_field_refuted",
    "C125_field_room_refuted",
    "C125_bare_return_refuted",
    "C125_room_before_refuted",
    "C125_room_before_break_refuted",
    "C125_names_refuted",
    "C125_operators_refuted",
    "C125_tidy_refuted",
    "C125_operators_exact"
   ],
   "note": "Each rule is shown to be needed by a program of the style without it that Lua() stops short of. C125_operators_exact: of the operators of the manual exactly those of the style are read. The true form is C124."
  },
  {
   "property": "C126",
   "status": "proved",
   "theorems": [
    "C126_what",
    "C126_seq",
    "C126_inside",
    "C126_same",
    "C126_reads",
    "C126_error",
    "C126_line"
   ],
   "note": "The decoder of the notation (SpecWhat.v) does not refer to the What methods. Left out: Seq inside other readers, Named, Match, Wrap, BetweenAny, Janus, rules and grammars; see C127."
  },
  {
   "property": "C127",
   "status": "partial",
   "theorems": [
    "C127_seq_refuted",
    "C127_any_refuted",
    "C127_body_refuted",
    "C127_range_refuted",
    "C127_surrogate_refuted",
    "C127_named_refuted",
    "C127_one_refuted",
    "C127_pick_refuted"
   ],
   "note": "Refuted: Many(Seq(a, b)) and Seq(Many(a), b) are both written +a b; Any(Seq(a, b)) like Any(a, b); Body(b, Many(t)) like BodyTail(b, t); Between of quote and backslash like the empty range the other way round (quoteRune trims the quote it should show); Rune of a surrogate like Rune of U+FFFD; Named may imitate anything; Between(r, r) like Rune(r), which differ for U+FFFD at the end; Pick puts the scanner back. The true form is C126."
  },
  {
   "property": "C128",
   "status": "proved",
   "theorems": [
    "C128_lua_returns",
    "C128_no_quotes",
    "C128_control_end",
    "C128_closed"
   ],
   "note": "Sharper than C69_lua_returns, which it implies (C128_control_end). That some texts that break off do hang is C69_lua_hangs; the theorem does not say that all of them do."
  },
  {
   "property": "C129",
   "status": "partial",
   "theorems": [
    "C129_comments_refuted",
    "C129_taken_for_minus_refuted",
    "C129_ends_program_refuted",
    "C129_inside_refuted",
    "C129_harmless_exact"
   ],
   "note": "Refuted as stated; C129_harmless_exact lists places where it holds. C130 proves it for all comments before a program."
  },
  {
   "property": "C130",
   "status": "proved",
   "theorems": [
    "C130_before_program",
    "C130_file",
    "C130_behind_semicolon"
   ],
   "note": "spaced (SpecLuaGap.v) follows grammar/lua.go in where a long comment ends (long_ends, see C96)."
  },
  {
   "property": "C131",
   "status": "partial",
   "theorems": [
    "C131_overwritten_exact",
    "C131_copy_refuted",
    "C131_low_water_exact",
    "C131_detached_exact",
    "C131_as_lists_exact"
   ],
   "note": "Refuted as stated; C131_overwritten_exact, C131_low_water_exact and C131_detached_exact say when the slice changes and when it does not; C131_as_lists_exact relates slices to the lists of the other properties."
  },
  {
   "property": "C132",
   "status": "proved",
   "theorems": [
    "C132_calls_keep",
    "C132_use_keeps"
   ],
   "note": "The slices are those of BasketMem.v. The sequence of calls in C132_use_keeps is a witness for the effect on the Basket; it is not recorded during the run."
  },
  {
   "property": "C133",
   "status": "partial",
   "theorems": [
    "C133_sorts_basket_exact",
    "C133_update_when_sorted_exact",
    "C133_sorting_is_harmless_refuted"
   ],
   "note": "Refuted as stated; C133_update_when_sorted_exact is the exact form. laminar as in C29."
  },
  {
   "property": "C134",
   "status": "partial",
   "theorems": [
    "C134_nested_tables_exact",
    "C134_polynomially_many_reads_refuted"
   ],
   "note": "Refuted as stated; C134_nested_tables_exact gives the lower bound for each depth. Texts are shorter than 2^63 bytes, therefore the refutation is for the polynomials with a+4d <= 56 and not for all."
  },
  {
   "property": "C135",
   "status": "proved",
   "theorems": [
    "C135_json_reads_are_linear",
    "C135_json_calls_are_linear",
    "C135_calls_are_counted"
   ],
   "note": "Calls of Read are counted by works (Cost.v), which is eats of Peg.v with a counter; for Logs the count is observable (C135_json_reads_are_linear). Steps inside one Read, such as the comparison of a literal, are not counted."
  },
  {
   "property": "C136",
   "status": "proved",
   "theorems": [
    "C136_token_string",
    "C136_token_in_text",
    "C136_segment_string",
    "C136_log_entry",
    "C136_token_reads_back"
   ],
   "note": "C136_token_reads_back is for positions that fit 64 bits, which all do."
  },
  {
   "property": "C137",
   "status": "proved",
   "theorems": [
    "C137_flame_stack_identifies",
    "C137_line_ends_matter"
   ],
   "note": "C137_line_ends_matter shows that the condition is needed."
  },
  {
   "property": "C138",
   "status": "partial",
   "theorems": [
    "C138_frame_width_exact",
    "C138_right_width_exact",
    "C138_frames_are_segments_refuted"
   ],
   "note": "Refuted as stated; C138_frame_width_exact and C138_right_width_exact are the exact form. frame_width models how flamegraph.pl adds up the lines of its input (README.adoc names it); the program itself is not part of the repository."
  },
  {
   "property": "C139",
   "status": "partial",
   "theorems": [
    "C139_mxt_reads_are_quadratic",
    "C139_mxt_calls_are_quadratic",
    "C139_far_arrow_exact",
    "C139_linearly_many_reads_refuted"
   ],
   "note": "Refuted as stated; C139_far_arrow_exact is the exact number for a family of texts, C139_mxt_reads_are_quadratic and C139_mxt_calls_are_quadratic the upper bound for all texts."
  },
  {
   "property": "C140",
   "status": "proved",
   "theorems": [
    "C140_exchange",
    "C140_exchange_both_ways",
    "C140_one_rule",
    "C140_json_digits"
   ],
   "note": ""
  },
  {
   "property": "C141",
   "status": "proved",
   "theorems": [
    "C141_any_flat",
    "C141_seq_flat",
    "C141_any_one",
    "C141_seq_one",
    "C141_opt",
    "C141_zom",
    "C141_many",
    "C141_times",
    "C141_factor",
    "C141_at",
    "C141_body_tail",
    "C141_names",
    "C141_skip",
    "C141_dead"
   ],
   "note": ""
  },
  {
   "property": "C142",
   "status": "partial",
   "theorems": [
    "C142_any_commutes_refuted",
    "C142_common_end_refuted",
    "C142_one_reader_refuted",
    "C142_any_flat_refuted",
    "C142_many_refuted",
    "C142_common_beginning_refuted",
    "C142_past_refuted"
   ],
   "note": "Refuted, law by law; C141 has the laws with the conditions under which they hold."
  },
  {
   "property": "C143",
   "status": "partial",
   "theorems": [
    "C143_refuted",
    "C143_refuted_grammars",
    "C143_exact",
    "C143_json",
    "C143_mxt"
   ],
   "note": "Refuted in general (Any() and Any of readers with other errors name position 0); proved for readers without these, with corollaries for JSON() and MXT()."
  },
  {
   "property": "C144",
   "status": "proved",
   "theorems": [
    "C144_json_error",
    "C144_json_error_unique"
   ],
   "note": ""
  },
  {
   "property": "C145",
   "status": "proved",
   "theorems": [
    "C145_json_error_viable"
   ],
   "note": ""
  },
  {
   "property": "C146",
   "status": "partial",
   "theorems": [
    "C146_refuted"
   ],
   "note": "Refuted by [[1 2]]; the exact place is proved in C144, and that what stands before it can be continued in C145."
  },
  {
   "property": "C147",
   "status": "proved",
   "theorems": [
    "C147_levels_are_depths",
    "C147_shallow_grammars"
   ],
   "note": ""
  },
  {
   "property": "C148",
   "status": "proved",
   "theorems": [
    "C148_mxt_levels",
    "C148_mxt_depth"
   ],
   "note": ""
  },
  {
   "property": "C149",
   "status": "proved",
   "theorems": [
    "C149_json_levels",
    "C149_json_depth",
    "C149_json_nesting",
    "C149_levels_grow"
   ],
   "note": ""
  },
  {
   "property": "C150",
   "status": "proved",
   "theorems": [
    "C150_lua_levels",
    "C150_lua_depth",
    "C150_levels_grow"
   ],
   "note": ""
  },
  {
   "property": "C151",
   "status": "proved",
   "theorems": [
    "C151_basket_is_a_tracker",
    "C151_trackers_do_not_matter",
    "C151_callbacks"
   ],
   "note": ""
  },
  {
   "property": "C152",
   "status": "proved",
   "theorems": [
    "C152_all_are_told_the_same",
    "C152_last_is_the_position",
    "C152_uncoupled",
    "C152_markers_in_text",
    "C152_failed_use"
   ],
   "note": ""
  },
  {
   "property": "C153",
   "status": "proved",
   "theorems": [
    "C153_every_basket_as_if_alone",
    "C153_other_baskets"
   ],
   "note": ""
  },
  {
   "property": "C154",
   "status": "proved",
   "theorems": [
    "C154_must_set_rule_names",
    "C154_set_up",
    "C154_checked_never_panics",
    "C154_grammar_lines",
    "C154_grammars_are_set_up"
   ],
   "note": ""
  },
  {
   "property": "C155",
   "status": "proved",
   "theorems": [
    "C155_looking",
    "C155_new",
    "C155_ends",
    "C155_back",
    "C155_get",
    "C155_get_panics",
    "C155_since",
    "C155_outside"
   ],
   "note": ""
  },
  {
   "property": "C156",
   "status": "proved",
   "theorems": [
    "C156_while",
    "C156_while_hangs",
    "C156_while_returns",
    "C156_while_if",
    "C156_while_nothing"
   ],
   "note": ""
  },
  {
   "property": "C157",
   "status": "proved",
   "theorems": [
    "C157_mxt_error",
    "C157_mxt_wrong",
    "C157_mxt_error_unique",
    "C157_mxt_continues"
   ],
   "note": ""
  },
  {
   "property": "C158",
   "status": "proved",
   "theorems": [
    "C158_mxt_calls",
    "C158_whole_text",
    "C158_list_unique",
    "C158_written_file_is_told"
   ],
   "note": ""
  },
  {
   "property": "C159",
   "status": "proved",
   "theorems": [
    "C159_mapping_changes_nothing",
    "C159_grammars"
   ],
   "note": ""
  },
  {
   "property": "C160",
   "status": "proved",
   "theorems": [
    "C160_json_calls",
    "C160_every_json_text"
   ],
   "note": ""
  },
  {
   "property": "C161",
   "status": "proved",
   "theorems": [
    "C161_strings",
    "C161_any_of_strings",
    "C161_to_string",
    "C161_rune",
    "C161_any_rune",
    "C161_between_and_match",
    "C161_move_runes",
    "C161_ends",
    "C161_programs",
    "C161_not_alike",
    "C161_undo"
   ],
   "note": ""
  },
  {
   "property": "C162",
   "status": "proved",
   "theorems": [
    "C162_told_words",
    "C162_lua",
    "C162_json",
    "C162_mxt"
   ],
   "note": ""
  },
  {
   "property": "C163",
   "status": "proved",
   "theorems": [
    "C163_beginning_does_not_matter",
    "C163_errors",
    "C163_calls",
    "C163_grammars",
    "C163_messages",
    "C163_grammars_name_places"
   ],
   "note": ""
  },
  {
   "property": "C164",
   "status": "proved",
   "theorems": [
    "C164_forward_methods",
    "C164_texts",
    "C164_values"
   ],
   "note": ""
  },
  {
   "property": "C165",
   "status": "proved",
   "theorems": [
    "C165_backward_methods",
    "C165_line_col"
   ],
   "note": ""
  },
  {
   "property": "C166",
   "status": "proved",
   "theorems": [
    "C166_baskets_and_logs"
   ],
   "note": ""
  },
  {
   "property": "C167",
   "status": "proved",
   "theorems": [
    "C167_kept_elsewhere",
    "C167_other_rules",
    "C167_amid",
    "C167_grammars",
    "C167_behind"
   ],
   "note": ""
  },
  {
   "property": "C168",
   "status": "proved",
   "theorems": [
    "C168_between",
    "C168_order"
   ],
   "note": ""
  },
  {
   "property": "C169",
   "status": "proved",
   "theorems": [
    "C169_reads_add_a_forest",
    "C169_levels",
    "C169_reads_can_be_printed",
    "C169_calls",
    "C169_calls_can_be_printed",
    "C169_entered",
    "C169_condition"
   ],
   "note": ""
  },
  {
   "property": "C170",
   "status": "proved",
   "theorems": [
    "C170_reads_end_between_runes",
    "C170_calls_and_entries",
    "C170_segments",
    "C170_grammars",
    "C170_baskets",
    "C170_condition"
   ],
   "note": ""
  }
 ]
}