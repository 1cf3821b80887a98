{
 "C01": "All public Scanner operations; programs are arbitrary sequences with branching and markers of the text. IfFold, RevIfFold and RevToFold are the operations excluded from panic freedom; C01_fold_panics shows they do panic. While is excluded from termination only.",
 "C02": "False as stated: ToMarker (scanner.go) accepts every marker because its guard uses && instead of ||. Refuted, with the exact behaviour (any later access to the text panics).",
 "C07": "False as stated: an ill-formed byte or U+FFFD before the position hides every earlier occurrence. Proved for valid UTF-8 without U+FFFD; C07_rev_to_exact describes all texts.",
 "C08": "False as stated: IfFold, RevIfFold, RevToFold slice past the text and panic. Exact behaviour proved, ToFold in full.",
 "C09": "IfMatch and IfBetween in full; IfRune and IfAnyRune answer yes at the end of the text when U+FFFD is asked for (refuted; the exception is exactly that case).",
 "C11": "False as stated for all four While* operations; exact behaviour proved.",
 "C12": "RevIfBetween and RevIfMatch are inverted (refuted, exact behaviour proved). RevIfRune and RevIfAnyRune are right except for U+FFFD at the start of the text.",
 "C14": "Everything except the sentence about ill-formed bytes, which is false (an ill-formed byte is passed as three bytes).",
 "C15": "False when exactly n runes are left: ScanString fails there. Proved when more than n runes are left; exact failure behaviour proved.",
 "C20": "False: both 64 bit reads can wrap around unnoticed. The value is the value of the digits modulo 2^64, and it is right whenever the number standing there fits.",
 "C24": "Len is Go int subtraction; it equals the interval length whenever that fits into an int (theorem states the bound).",
 "C30": "False: the comparison of SortSegments is reflexive, so segments with equal tokens come out in exactly reversed order (proved).",
 "C35": "Theorems C35_equal_tokens_depend_on_order and C35_empty_tokens_depend_on_order show that both hypotheses are needed.",
 "C37": "Readers without Wrap anywhere. Panic freedom excludes exactly Fold and rules without Reader, both shown to panic.",
 "C38": "restoring is the syntactic condition 'no Times(k>=2) in pass-through position'; C38_times_consumes gives the exact position where Times stops.",
 "C39": "For all readers; C39_tried_at_same_position adds the condition of the statement (readers that do not consume on failure).",
 "C42": "General statement, the named readers, and JSON() on an unterminated string.",
 "C43": "False as stated: Past(Times(2, \"\\xC3\")) on valid text stops inside a rune and hangs. Proved when the tail reader, failing, stands in front of a rune again; To in full for every text; hanging on ill-formed text proved.",
 "C44": "At in full. Not does not move at the end of the text (refuted); exact behaviour proved, including ill-formed bytes.",
 "C45": "State-independent reader = acts: result and end position are a function of the position.",
 "C47": "First half in full. Second half false: the end reader forgets the string on its own success even if the construct around it fails (refuted); exact behaviour of both readers proved.",
 "C50": "picks_fit is the hypothesis of the statement; C50_static_condition gives a syntactic criterion.",
 "C57": "C57_names_hide: Named and Rule show their name instead, so the marker is hidden there (not claimed by the statement).",
 "C58": "BetweenAny and BuildBetweenAny in full. Set succeeds at the end of the text if U+FFFD is among the singles (refuted); proved in all other cases.",
 "C51": "Readers without Wrap, and without Pick into the basket below Body/BodyTail (C54 shows what happens there). C53_unordered_basket and C54_refuted show that the conditions matter.",
 "C52": "False as stated: a picked segment of width 0 at the position gone back to survives. C52 exact: precisely the segments ending behind the position are removed, by every move; the statement holds for non-empty segments.",
 "C54": "False as stated for Pick below Body/BodyTail (their segments are relative to the scanner of the body). Proved without those.",
 "C55": "False as stated: Map also calls its function for reads that are undone by an enclosing reader later. Exact: one call per successful sub Read, at its end, with its token; every call stems from a Read inside the text.",
 "C56": "False as stated: ExitAt and Error of an entry are lost when append moves the entries while the sub reader runs (refuted for every growth policy). Names, positions, levels, order and count proved; exact condition for ExitAt and Error.",
 "C59": "False as stated: CheckRuleName accepts every text that begins with a letter (refuted; exact behaviour proved). That valid names are accepted is proved.",
 "C60": "SetRuleNames and CheckRules in full. False for structs with unexported fields, where CollectRules panics (refuted); proved for all others.",
 "C61": "Soundness at byte level: a success has consumed a JSON element.",
 "C62": "Completeness: whole texts, elements followed by other text, and recognition as an equivalence. Texts shorter than 2^63 bytes, as for every scanner.",
 "C63": "False as stated: texts that break off inside a string are read forever (refuted). Exactly these hang (C63_json_hangs_exact); all others return; no panic.",
 "C64": "False for MXT: the salt of an earlier text survives in the Janus pair (refuted). Proved for JSON, Lua and every grammar whose Janus ends follow their beginnings.",
 "C65": "False as stated: a bracket followed by the equal signs of the level inside the string makes the reader forget the level (refuted), and on ill-formed text Past may step over the closing bracket (refuted). Exact on well-formed text in C65_long_bracket_exact; true at level 0 and whenever no such near miss precedes the closing bracket.",
 "C66": "False as stated: //, << and >> are read by their first byte (refuted). Exact in C66_binop_exact; true for all other operators.",
 "C67": "Returns on every well-formed text, via a certificate for the grammar and a general totality theorem; hangs on a family of ill-formed texts.",
 "C68": "Soundness of the check (certifies); MXT, Lua and a small recursive grammar are instances.",
 "C69": "Instance of C68 plus independence of earlier reads (C64); the hang is shown for every name, both quotes and all contents.",
 "C71": "Longest match against a grammar of numerals stated without the readers.",
 "C72": "False as stated: 3. and .5 and 0x.8 are not read completely (refuted). Exactly the numerals with digits on both sides of the dot are; whatever is read is a numeral of Lua 5.4.",
 "C73": "Contents are bytes; ill-formed bytes count as plain characters. Decimal escapes are read by their first digit, the others are then plain.",
 "C74": "An unclosed long comment is read as a line comment; a line comment at the end of the text without newline is not read.",
 "C75": {
  "status": "proved",
  "theorems": [
   "C02_to_marker_exact"
  ],
  "note": "The exact behaviour behind C02."
 },
 "C76": {
  "status": "proved",
  "theorems": [
   "C07_rev_to_exact",
   "C07_split_exists"
  ],
  "note": "The exact behaviour behind C07; C07_split_exists shows that the split used there exists for every text."
 },
 "C77": {
  "status": "proved",
  "theorems": [
   "C08_if_fold_exact",
   "C08_rev_if_fold_exact",
   "C08_to_fold",
   "C08_rev_to_fold_exact"
  ],
  "note": "The exact behaviour behind C08."
 },
 "C78": {
  "status": "proved",
  "theorems": [
   "C09_if_rune_partial",
   "C09_if_any_rune_partial",
   "C09_if_rune_at_end",
   "C09_if_any_rune_at_end"
  ],
  "note": "The exact behaviour behind C09: the two theorems named partial cover all but the end of the text, the others that."
 },
 "C79": {
  "status": "proved",
  "theorems": [
   "C11_while_rune_exact",
   "C11_while_between_exact",
   "C11_while_any_rune_exact",
   "C11_while_match_exact",
   "C11_max_run_exists"
  ],
  "note": "The exact behaviour behind C11."
 },
 "C80": {
  "status": "proved",
  "theorems": [
   "C12_rev_if_rune_exact",
   "C12_rev_if_any_rune_exact",
   "C12_rev_if_between_exact",
   "C12_rev_if_match_exact"
  ],
  "note": "The exact behaviour behind C12."
 },
 "C81": {
  "status": "proved",
  "theorems": [
   "C14_move_runes_any"
  ],
  "note": "The exact behaviour behind C14."
 },
 "C82": {
  "status": "proved",
  "theorems": [
   "C15_scan_string_exact",
   "C15_scan_string_no_exact"
  ],
  "note": "The exact behaviour behind C15."
 },
 "C83": {
  "status": "proved",
  "theorems": [
   "C20_read_uint_mod",
   "C20_read_int_mod"
  ],
  "note": "The exact behaviour behind C20."
 },
 "C84": {
  "status": "proved",
  "theorems": [
   "C30_sort_segments_reverses_exact"
  ],
  "note": "The exact behaviour behind C30."
 },
 "C85": {
  "status": "proved",
  "theorems": [
   "C43_terminate_partial",
   "C43_to_terminates",
   "C43_hang_on_ill_formed"
  ],
  "note": "What holds of C43."
 },
 "C86": {
  "status": "proved",
  "theorems": [
   "C44_not_exact"
  ],
  "note": "The exact behaviour behind C44."
 },
 "C87": {
  "status": "proved",
  "theorems": [
   "C47_janus_begin_exact",
   "C47_janus_end_exact"
  ],
  "note": "The exact behaviour behind C47."
 },
 "C88": {
  "status": "proved",
  "theorems": [
   "C52_failed_use_exact"
  ],
  "note": "The exact behaviour behind C52."
 },
 "C89": {
  "status": "proved",
  "theorems": [
   "C54_picked_positions_refer_to_text_partial",
   "C54_cut_out_literals",
   "C54_pick_adds_what_it_read"
  ],
  "note": "What holds of C54."
 },
 "C90": {
  "status": "proved",
  "theorems": [
   "C55_map_calls_exact",
   "C55_calls_stem_from_reads_partial"
  ],
  "note": "The exact behaviour behind C55."
 },
 "C91": {
  "status": "proved",
  "theorems": [
   "C56_monitored_read_exact",
   "C56_reads_only_add_entries",
   "C56_new_log_ok",
   "C56_unmonitored_reads_add_nothing"
  ],
  "note": "The exact behaviour behind C56."
 },
 "C92": {
  "status": "proved",
  "theorems": [
   "C59_check_rule_name_exact"
  ],
  "note": "The exact behaviour behind C59."
 },
 "C93": {
  "status": "proved",
  "theorems": [
   "C60_collect_rules",
   "C60_collect_rules_panics"
  ],
  "note": "The exact behaviour behind C60."
 },
 "C94": {
  "status": "proved",
  "theorems": [
   "C63_json_hangs_exact",
   "C63_json_terminates_partial"
  ],
  "note": "The exact behaviour behind C63."
 },
 "C95": {
  "status": "proved",
  "theorems": [
   "C64_clean_grammars_independent"
  ],
  "note": "What holds of C64."
 },
 "C96": {
  "status": "proved",
  "theorems": [
   "C65_long_bracket_exact",
   "C65_no_bracket"
  ],
  "note": "The exact behaviour behind C65."
 },
 "C97": {
  "status": "proved",
  "theorems": [
   "C66_binop_exact"
  ],
  "note": "The exact behaviour behind C66."
 },
 "C98": "Refuted: EnterAt is a byte offset, subStringFrom takes a rune index. Exact behaviour for all texts, and right if all text before EnterAt is ASCII.",
 "C99": "JSON and Lua meet the hypotheses for all rules, MXT for all but WordChar (see C104).",
 "C100": "JSON, MXT and Lua meet the hypotheses.",
 "C101": "",
 "C102": "Gather.v is the semantics of the parse; C102_basket_exact drops the hypothesis on empty matches (Marks.v).",
 "C103": "Trace.v is the semantics of the search.",
 "C104": "Refuted: WordChar is read below BodyTail on a scanner of its own, its segments have relative positions. Holds for every choice of rules without WordChar.",
 "C105": "SpecMxt.v is the byte level description.",
 "C106": "",
 "C107": "",
 "C108": "SpecTree.v is the tree of a JSON text.",
 "C109": "JSON() and so the demo accept a JSON text followed by anything; hanging of JSON() on unterminated strings is C63.",
 "C110": {
  "status": "proved",
  "theorems": [
   "C98_preview_exact"
  ],
  "note": "The exact behaviour behind C98."
 },
 "C111": "What holds of C104.",
 "C112": "The language puts no condition on what follows; steadiness is needed (C112_steadiness_is_needed).",
 "C113": "Tokens may stand together and keywords may be names: see C114. What is not read is C115.",
 "C114": "Refuted: gotox is read as goto x, and end=1 is read. What holds is C113_lua_file.",
 "C115": "Refuted: a table like {1, 2} with a space behind the comma is not read, while {1,2} is (FieldList and NameList use Seq, not SkipSeq). Programs that are read: C124.",
 "C116": "Over C112; steadiness is needed as there.",
 "C117": "Phrases as in C113.",
 "C118": "The calls the demo makes after reading the file; termination is C69.",
 "C119": "Refuted: Lua() never fails (C118_lua_never_fails); an ill-formed program is read as an empty or shorter chunk.",
 "C120": "Refuted: FinalExp uses LuaNumeral() and not the rule Numeral. Exact: SheBang, Numeral and Script are never picked through Lua().",
 "C121": "64 bit reads may wrap around (C20, C83); printed 64 bit numbers are covered here.",
 "C122": "For U+FFFD at the end see C122_at_the_end.",
 "C123": "The end of the text for Holey is the quirk of C42/C63.",
 "C124": "The style is an inductive definition in SpecLuaStyle.v that does not refer to the readers. Long strings, comments and the operators // >> << are not in it.",
 "C125": "Each rule is shown to be needed by a program of the style without it that Lua() stops short of. C125_operators_exact: of the operators of the manual exactly those of the style are read. The true form is C124.",
 "C126": "The decoder of the notation (SpecWhat.v) does not refer to the What methods. Left out: Seq inside other readers, Named, Match, Wrap, BetweenAny, Janus, rules and grammars; see C127.",
 "C127": "Refuted: Many(Seq(a, b)) and Seq(Many(a), b) are both written +a b; Any(Seq(a, b)) like Any(a, b); Body(b, Many(t)) like BodyTail(b, t); Between of quote and backslash like the empty range the other way round (quoteRune trims the quote it should show); Rune of a surrogate like Rune of U+FFFD; Named may imitate anything; Between(r, r) like Rune(r), which differ for U+FFFD at the end; Pick puts the scanner back. The true form is C126.",
 "C128": "Sharper than C69_lua_returns, which it implies (C128_control_end). That some texts that break off do hang is C69_lua_hangs; the theorem does not say that all of them do.",
 "C129": "Refuted as stated; C129_harmless_exact lists places where it holds. C130 proves it for all comments before a program.",
 "C130": "spaced (SpecLuaGap.v) follows grammar/lua.go in where a long comment ends (long_ends, see C96).",
 "C131": "Refuted as stated; C131_overwritten_exact, C131_low_water_exact and C131_detached_exact say when the slice changes and when it does not; C131_as_lists_exact relates slices to the lists of the other properties.",
 "C132": "The slices are those of BasketMem.v. The sequence of calls in C132_use_keeps is a witness for the effect on the Basket; it is not recorded during the run.",
 "C133": "Refuted as stated; C133_update_when_sorted_exact is the exact form. laminar as in C29.",
 "C134": "Refuted as stated; C134_nested_tables_exact gives the lower bound for each depth. Texts are shorter than 2^63 bytes, therefore the refutation is for the polynomials with a+4d <= 56 and not for all.",
 "C135": "Calls of Read are counted by works (Cost.v), which is eats of Peg.v with a counter; for Logs the count is observable (C135_json_reads_are_linear). Steps inside one Read, such as the comparison of a literal, are not counted.",
 "C136": "C136_token_reads_back is for positions that fit 64 bits, which all do.",
 "C137": "C137_line_ends_matter shows that the condition is needed.",
 "C138": "Refuted as stated; C138_frame_width_exact and C138_right_width_exact are the exact form. frame_width models how flamegraph.pl adds up the lines of its input (README.adoc names it); the program itself is not part of the repository.",
 "C139": "Refuted as stated; C139_far_arrow_exact is the exact number for a family of texts, C139_mxt_reads_are_quadratic and C139_mxt_calls_are_quadratic the upper bound for all texts.",
 "C142": "Refuted, law by law; C141 has the laws with the conditions under which they hold.",
 "C143": "Refuted in general (Any() and Any of readers with other errors name position 0); proved for readers without these, with corollaries for JSON() and MXT().",
 "C146": "Refuted by [[1 2]]; the exact place is proved in C144, and that what stands before it can be continued in C145."
}