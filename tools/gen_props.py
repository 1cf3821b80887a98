#!/usr/bin/env python3
# Source of properties.jsonl (kept as a script so that the JSON stays well-formed).
import json
P=[]
def p(title, statement, quantifier, why, anchors):
    P.append(dict(id="C%02d"%(len(P)+1), title=title, statement=statement, quantifier=quantifier, why_tests_cant=why, anchors=anchors))

p("Scanner position always stays inside the text",
  "Starting from NewScanner/NewRevScanner, after any sequence of public Scanner calls in which ToMarker is only given markers between 0 and the length of the text, the position is between 0 and len(text), the text is unchanged, and Head()+Tail() is the whole text. The only calls that can panic on the way are IfFold, RevIfFold and RevToFold.",
  "every text (arbitrary bytes), every finite sequence of Scanner calls with arbitrary arguments",
  "a history of calls of unbounded length over arbitrary, possibly ill-formed UTF-8, text",
  ["scanner.go:Scanner","scanner.go:Move","scanner.go:ToMarker","scanner.go:Tail","scanner.go:Head","scanner_rev.go"])
p("ToMarker rejects positions outside the text",
  "ToMarker(m) returns true and moves exactly when m is a position of the text (0 <= m <= len(text)), otherwise it returns false and leaves the scanner alone.",
  "every text, position and marker",
  "the marker is an arbitrary integer",
  ["scanner.go:ToMarker"])
p("Move is exact and total",
  "Move(n) moves by exactly n bytes and returns true iff the target is inside the text; otherwise it returns false and the position is unchanged - also when position+n overflows int64.",
  "every text, position and int64 n",
  "boundary arithmetic over all 2^64 arguments",
  ["scanner.go:Move"])
p("Scoped operations roll back on failure and are transparent on success",
  "Scope, Trace, Tokenize, Capture, Use, UseFunc, TraceUse, TraceUseFunc, TokenizeUse and CaptureUse leave the position where the wrapped function left it when it succeeds, and at the position before the call when it fails; the token/sub string they return on success is exactly the range between the two positions.",
  "every wrapped function/Reader, every scanner state",
  "the wrapped function is arbitrary code",
  ["scanner.go:Scope","scanner.go:Trace","token.go:Tokenize","token.go:TokenizeUse","token.go:Capture","token.go:CaptureUse","token.go:Since","reader.go:Use","reader.go:UseFunc","reader.go:TraceUse"])
p("If/IfAny/RevIf/RevIfAny consume exactly a matching literal",
  "If(str) returns true iff the remaining text starts with str and then moves past exactly it, otherwise nothing changes; IfAny behaves as If of the first string in the list that matches; RevIf/RevIfAny are the mirror image on the text before the position.",
  "every text, position, string and list of strings",
  "all texts and strings",
  ["scanner.go:If","scanner.go:IfAny","scanner_rev.go:RevIf","scanner_rev.go:RevIfAny"])
p("To finds the first occurrence",
  "To(str) returns true iff str occurs at or after the position, and then stands at the leftmost such occurrence; otherwise it returns false and does not move.",
  "every text, position and string",
  "leftmost-ness quantifies over every other occurrence",
  ["scanner.go:To"])
p("RevTo finds the last occurrence",
  "RevTo(str), for a non-empty str, returns true iff str occurs in the text before the position, and then stands just behind the rightmost such occurrence; otherwise it returns false and does not move.",
  "every text, position and non-empty string",
  "all texts including those with U+FFFD or ill-formed bytes",
  ["scanner_rev.go:RevTo","intl.go:revItr"])
p("Case-folding operations never crash and match as documented",
  "IfFold/RevIfFold/ToFold/RevToFold do not panic; IfFold moves past a prefix that equals str under case folding, ToFold moves to the first position where such a match starts.",
  "every text, position, string and folding relation",
  "short texts / boundary positions and every folding relation",
  ["scanner.go:IfFold","scanner.go:ToFold","scanner_rev.go:RevIfFold","scanner_rev.go:RevToFold"])
p("If* rune operations consume exactly one matching rune",
  "IfRune, IfAnyRune, IfBetween, IfMatch return true iff there is a next rune and it satisfies the test, and then move past exactly this rune; otherwise they return false and do not move.",
  "every text, position, rune, rune set, range and predicate",
  "all texts, also ill-formed UTF-8, and the end of the text",
  ["scanner.go:IfRune","scanner.go:IfAnyRune","scanner.go:IfBetween","scanner.go:IfMatch"])
p("To* rune operations stop at the first matching rune",
  "ToRune, ToAnyRune, ToBetween, ToMatch return true iff some rune at or behind the position satisfies the test and then stand at the first such rune; otherwise they return false and do not move.",
  "every text, position, rune, rune set, range and predicate",
  "leftmost-ness over every rune of every text",
  ["scanner.go:ToRune","scanner.go:ToAnyRune","scanner.go:ToBetween","scanner.go:ToMatch"])
p("While* rune operations skip the maximal run of matching runes and report whether they moved",
  "WhileRune, WhileAnyRune, WhileBetween, WhileMatch move to the first rune that fails the test, or to the end of the text if there is none, and return true iff they moved.",
  "every text, position, rune, rune set, range and predicate",
  "the run may be empty or reach the end of the text",
  ["scanner.go:WhileRune","scanner.go:WhileAnyRune","scanner.go:WhileBetween","scanner.go:WhileMatch"])
p("RevIf* rune operations consume exactly one matching rune backwards",
  "RevIfRune, RevIfAnyRune, RevIfBetween, RevIfMatch return true iff there is a rune before the position and it satisfies the test, and then move to its start; otherwise they return false and do not move.",
  "every text, position, rune, rune set, range and predicate",
  "all texts and the start of the text",
  ["scanner_rev.go:RevIfRune","scanner_rev.go:RevIfAnyRune","scanner_rev.go:RevIfBetween","scanner_rev.go:RevIfMatch"])
p("RevTo*/RevWhile* rune operations mirror the forward ones",
  "On text whose part before the position is valid UTF-8 without U+FFFD, RevToRune/RevToAnyRune/RevToBetween/RevToMatch stop just behind the last rune that satisfies the test (or return false without moving), and RevWhileRune/RevWhileAnyRune/RevWhileBetween/RevWhileMatch skip backwards the maximal run of matching runes.",
  "every such text, position, rune, rune set, range and predicate",
  "all texts, runs of every length",
  ["scanner_rev.go:RevToRune","scanner_rev.go:RevWhileRune","scanner_rev.go:RevToMatch","scanner_rev.go:RevWhileMatch","intl.go:revItr"])
p("MoveRunes counts runes and is invertible",
  "On valid UTF-8, MoveRunes(n) succeeds iff at least |n| runes are on that side and then passes exactly |n| runes, otherwise does not move; MoveRunes(-n) afterwards returns to the start position (for text without U+FFFD). A single ill-formed byte is passed as one rune.",
  "every text, position and count",
  "all texts and all counts",
  ["scanner.go:MoveRunes"])
p("ScanString returns exactly n runes when n are available",
  "ScanString(n) returns the next n runes and moves past them iff at least n runes remain; otherwise it does not move and reports false.",
  "every text, position and n",
  "exact-length boundary for every text",
  ["scanner.go:ScanString","intl.go:getPrefix"])
p("UTF-8 decoding agrees in both directions",
  "On valid UTF-8 text, walking forward rune by rune and walking backward rune by rune visit the same runes at the same positions; ReadRune followed by RevReadRune is the identity, and every rune except U+FFFD that is encoded into the text is returned by ReadRune.",
  "every sequence of Unicode scalar values",
  "all texts and all 1.1M code points in every context",
  ["read.go:ReadRune","read.go:RevReadRune","intl.go:revItr"])
p("LineCol reports 1-based line and tab-expanded column",
  "LineCol(tab) returns 1 + the number of newline characters before the position, and 1 + the width of the text since the last newline, a tab counting as tab and every other byte as 1. The column is an int: it wraps around exactly if it does not fit.",
  "every text, position and tab width",
  "all texts with any mix of \\n, \\r\\n and tabs",
  ["scanner.go:LineCol"])
p("ReadInt reads the longest digit prefix that fits (8/16/32 bit)",
  "For bases 8, 10, 16 and bit sizes 8, 16, 32, ReadInt consumes an optional sign and the longest non-empty run of digits whose value stays within the signed range, and returns exactly that value; if there is no digit it fails and does not move.",
  "every text and position, all bases and those bit sizes",
  "all digit strings of every length",
  ["read.go:ReadInt"])
p("ReadUint reads the longest digit prefix that fits (8/16/32 bit)",
  "For bases 8, 10, 16 and bit sizes 8, 16, 32, ReadUint consumes the longest non-empty run of digits whose value stays within the unsigned range, and returns exactly that value; if there is no digit it fails and does not move.",
  "every text and position, all bases and those bit sizes",
  "all digit strings of every length",
  ["read.go:ReadUint"])
p("64 bit reads never return an overflowed value",
  "ReadInt(base,64) and ReadUint(base,64) return the value of the digits they consumed.",
  "every text and position, all bases",
  "wrap-around only shows for particular 20 digit inputs",
  ["read.go:ReadInt","read.go:ReadUint"])
p("Printed numbers read back",
  "For every bit size (8,16,32,64) and base (8,10,16) and every value v representable in it, writing v in that base (with '-' for negative values) followed by text that does not start with a digit and reading it with ReadInt/ReadUint returns v and consumes exactly the printed number.",
  "every value of every size, every following text",
  "2^64 values",
  ["read.go:ReadInt","read.go:ReadUint"])
p("Number reads stay in range, and failing reads do not move",
  "A value returned by ReadInt/ReadUint is always within the range of the bit size; when ReadInt/ReadUint/ReadBool/ReadRune/RevReadRune return an error the position is unchanged; an unsupported base, bit size or format is an error.",
  "every text, position, base, bit size, format",
  "all inputs",
  ["read.go"])
p("ReadBool recognises exactly its format",
  "ReadBool returns true/false iff the text at the position starts with one of the spellings of the format, moving past exactly that spelling; otherwise error without moving.",
  "every text, position and format",
  "all texts",
  ["read.go:ReadBool"])
p("Tokens are always ordered intervals",
  "Every Token obtained from MakeToken, Merge, Split, Tokenize has from <= to; MakeToken does not depend on the argument order; Len is the length of the interval.",
  "every marker pair and every sequence of token operations",
  "all integers and operation sequences",
  ["token.go:MakeToken","token.go:Merge","token.go:Split","token.go:Len"])
p("Token relations classify intervals",
  "Covers is a partial order; Before and After are converse; Clashes is symmetric and irreflexive and holds exactly if the two intervals share a position but neither contains the other; for non-empty tokens exactly one of Before, After, Clashes, or Covers in some direction holds.",
  "every pair/triple of tokens",
  "all integer intervals",
  ["token.go:Covers","token.go:Before","token.go:After","token.go:Clashes"])
p("Merge is the smallest covering token",
  "t.Merge(o) covers t and o, and is covered by every token that covers both; Merge is associative, commutative and idempotent.",
  "every pair/triple of tokens",
  "all integer intervals",
  ["token.go:Merge"])
p("Split cuts a token without loss",
  "If t covers sep then t.Split(sep) returns l, r such that l, sep, r are adjacent and together are exactly t.",
  "every pair of tokens with t covering sep",
  "all integer intervals",
  ["token.go:Split","segment.go:Split"])
p("Segmentate tiles the text",
  "Segmentate succeeds iff the given segments are inside the range, ordered and non overlapping; the result is then an exact gap-free, overlap-free tiling of the range that contains the given segments in order, every filler being non-empty and carrying the info of the whole; on a scanner the concatenated sub strings of the result are the full text.",
  "every range and every list of segments",
  "lists of every length",
  ["segment.go:Segmentate"])
p("SortSegments puts covering segments first",
  "SortSegments permutes its slice; if the segments are non-empty and pairwise do not clash, afterwards for i<j the i-th segment covers the j-th or lies before it.",
  "every slice of segments",
  "slices of every length and content",
  ["segment.go:SortSegments"])
p("SortSegments is stable",
  "Segments with equal tokens keep their relative order under SortSegments.",
  "every slice of segments",
  "slices of every length and content",
  ["segment.go:SortSegments"])
p("SortSegmentsByOrder sorts by position and then by the given order, stably",
  "SortSegmentsByOrder permutes its slice; for non-empty, pairwise non-clashing segments the result is sorted by cover/before, equal tokens are ordered by the index of their info in order (unknown infos first), and segments that tie completely keep their relative order.",
  "every slice of segments and order list without duplicates",
  "slices of every length and content",
  ["segment.go:SortSegmentsByOrder"])
p("Graph.Append accepts exactly the segments that clash with nothing",
  "On a graph built by NewGraph/Append, Append(seg) returns true iff seg clashes with no segment accepted before.",
  "every history of Append calls",
  "trees of every size and shape",
  ["graph.go:Append","graph.go:rankNodes"])
p("A refused Append leaves the graph unchanged",
  "If Append returns false the graph is exactly the graph before the call.",
  "every history of Append calls",
  "trees of every size and shape",
  ["graph.go:Append","graph.go:rankNodes"])
p("A graph is a faithful nesting of the accepted segments",
  "The nodes below the root are exactly the accepted segments (as a multiset), every node covers its children, children are disjoint and sorted by position, and the root token is the smallest token covering all accepted segments.",
  "every history of Append calls",
  "trees of every size and shape",
  ["graph.go:Append","graph.go:rankNodes","graph.go:BuildGraph"])
p("Graph shape is independent of insertion order",
  "Two histories that accept the same non-empty segments with pairwise different tokens, in any order, build equal graphs.",
  "every list of segments and permutation of it",
  "n! orders of every list",
  ["graph.go:BuildGraph","graph.go:Equal"])
p("Leafs, Equal and FlameStack reflect the tree",
  "Leafs returns exactly the segments of the childless nodes from left to right, sorted by position; Equal decides structural equality; FlameStack emits one line per node in depth-first order.",
  "every graph",
  "trees of every size and shape",
  ["graph.go:Leafs","graph.go:Equal","graph.go:FlameStack"])
p("Built-in readers only move forward and never leave the text",
  "For every reader built from the package's constructors (user functions in Wrap excluded), Read ends at a position between the start position and the end of the text, whether it succeeds or fails, and it can only panic through Fold or a Rule whose Reader is nil.",
  "every reader graph (recursive rules included), every text and position",
  "recursive grammars and texts of every size",
  ["reader.go","grammar.go:Rule"])
p("Failing readers do not consume",
  "When Read returns an error the scanner stands where it stood before the call, for every reader in which Times does not occur in a pass-through position; Times(n,r) itself violates this.",
  "every reader graph, text and position",
  "recursive grammars and texts of every size",
  ["reader.go:timesReader","reader.go:anyReader","reader.go:seqReader","reader.go:manyReader"])
p("Any is ordered choice",
  "Any(r1..rn) succeeds iff some ri succeeds when the readers before it failed at the same position, with the effect of the first such ri; if all fail the position is restored and the returned error is the deepest ReadError, the last one among equals.",
  "every list of non-consuming-on-failure readers, text, position",
  "arbitrary readers and texts",
  ["reader.go:anyReader","reader.go:getDeepest","error.go:Later"])
p("Seq and SkipSeq are all-or-nothing concatenation",
  "Seq succeeds iff every reader succeeds from where the one before stopped, and then stands behind the last; otherwise it returns the error of the first failing reader and restores the position. SkipSeq additionally runs skip before the first and behind every reader.",
  "every list of readers, text, position",
  "arbitrary readers and texts",
  ["reader.go:seqReader","reader.go:skipSeqReader"])
p("Zom/Many are greedy repetition",
  "If Zom(r) or Many(r) returns, r was applied the maximal number of times: it stands at a position reached by k successful reads of r where r fails; Zom never fails; Many fails iff nothing was consumed, and then restores.",
  "every reader r that does not consume on failure, text, position",
  "unbounded repetition",
  ["reader.go:zomReader","reader.go:manyReader"])
p("Repetition over a reader that can succeed without consuming never returns",
  "If r succeeds at a position without moving and without changing the scanner state then Zom(r) and Many(r) do not terminate there; in particular Zom(Not(x)), Zom(Holey(...)) and Zom(Rune(U+FFFD)) hang at the end of the text, and so does JSON() on an unterminated string.",
  "every reader and every number of steps",
  "non-termination cannot be observed by a test",
  ["reader.go:zomReader","reader.go:holeyReader","reader.go:notReader","grammar/json.go:JSON"])
p("Past/Body/BodyTail terminate",
  "On valid UTF-8 text, Past(r), Body(b,t), BodyTail(b,t) and To(r) terminate whenever their sub readers do; on ill-formed text Past/Body/BodyTail can hang.",
  "every text and sub reader",
  "non-termination cannot be observed by a test",
  ["reader.go:pastReader","reader.go:bodyReader","reader.go:bodyTailReader","reader.go:toReader","scanner.go:MoveRunes"])
p("At and Not are pure lookahead",
  "At(r) succeeds iff r succeeds and never moves; Not(r) fails iff r succeeds and then does not move, otherwise it moves one rune.",
  "every reader, text, position",
  "arbitrary readers and texts",
  ["reader.go:atReader","reader.go:notReader"])
p("To and Past find the leftmost match",
  "On valid UTF-8, To(r) succeeds iff r succeeds at some rune boundary at or behind the position and stops at the first one; Past(r) stops behind the match of the first one that lies before the end of the text; otherwise they fail and restore.",
  "every state-independent reader, text, position",
  "leftmost-ness over all positions",
  ["reader.go:toReader","reader.go:pastReader"])
p("Body/BodyTail delimit a body",
  "On valid UTF-8, Body(b,t) succeeds iff at the first rune boundary where t succeeds the text in between is read completely by b; Body stops before the tail, BodyTail behind it; otherwise they fail and restore.",
  "every state-independent readers, text, position",
  "all texts and positions",
  ["reader.go:bodyReader","reader.go:bodyTailReader"])
p("Janus end matches what Janus begin read",
  "After the begin reader of a Janus pair has read w, the end reader succeeds at a position iff the text there starts with w, and keeps expecting w until the construct that uses it has succeeded.",
  "every text, sub reader and position",
  "depends on the history of reads",
  ["reader.go:janusBeginReader","reader.go:janusEndReader"])
p("Opt never fails and Named/Rule/RuleName do not change what is read",
  "Opt(r) succeeds always; Named(n,r) and a Rule behave as their sub reader except for What.",
  "every reader, text, position",
  "arbitrary readers and texts",
  ["reader.go:optReader","reader.go:namedReader","grammar.go:Rule"])
p("Monitoring does not change parsing",
  "Putting Monitor around any readers/rules of a grammar changes neither the result, the error, the final position nor the picked segments of any Read.",
  "every reader graph, every set of monitored readers, text, position",
  "every grammar and text",
  ["monitor.go:monitorReader","grammar.go:Rule.Monitor"])
p("Picking and mapping do not change parsing",
  "Putting Pick/Map around readers that do not consume on failure, and coupling a Tracker, changes neither the result, the error nor the final position of any Read.",
  "every reader graph, every set of picked/mapped readers, text, position",
  "every grammar and text",
  ["tracker.go:pickReader","reader.go:mapReader","tracker.go:NewBasketFor"])
p("Picked segments are consistent",
  "After any Read on a scanner with a fresh Basket - success or failure - the picked segments are ordered by their end, lie between start and end position, pairwise do not clash, and BuildGraph therefore accepts all of them.",
  "every reader graph without picks below Body/BodyTail, text, position",
  "every backtracking history",
  ["tracker.go:Basket","tracker.go:Update","tracker.go:pickReader","graph.go:BuildGraph"])
p("A failed read leaves nothing in the Basket",
  "If Use(r) returns an error the Basket contains the same segments as before the call.",
  "every reader graph, text, position",
  "every backtracking history",
  ["tracker.go:Update","reader.go:Use"])
p("Basket.Update forgets exactly the segments behind the new position",
  "For a basket ordered by segment end, Update(m) keeps exactly the segments that end at or before m.",
  "every ordered basket and marker",
  "all lists",
  ["tracker.go:Update"])
p("Picked positions refer to the scanned text",
  "Every picked segment, cut out of the scanner with Get, is the sub string that the picked reader read.",
  "every reader graph, text, position",
  "every grammar and text",
  ["tracker.go:pickReader","reader.go:bodyReader"])
p("Map reports only what ends up in the parse",
  "The function given to Map is called exactly with the tokens that are part of the successful parse.",
  "every reader graph, text, position",
  "every backtracking history",
  ["reader.go:mapReader"])
p("The Log records every monitored read",
  "After a monitored Read the Log has one entry per monitored call in call order with its name, start position and nesting level, the level is back at its old value, and ExitAt/Error of every entry are the end position and error of that call.",
  "every reader graph, text, position, slice growth policy",
  "depends on when append reallocates",
  ["monitor.go:Log.Enter","monitor.go:Log.Exit","monitor.go:monitorReader"])
p("Invalid readers are detectable and always fail",
  "A constructor given an unsupported argument or an invalid range string returns a reader whose Read always fails without moving and whose What contains the invalid marker; the marker of an invalid reader nested in Any/Seq/SkipSeq/Many/Zom/Opt/To/Past/At/Not/Times/Body/Map/Pick/Monitor is visible in the What of the whole.",
  "every argument list, every reader tree",
  "arbitrary nesting",
  ["reader.go:InvalidReader","reader.go:HasInvalidReader","reader.go:asReader","reader.go:BetweenAny"])
p("BetweenAny/Set/BuildBetweenAny read exactly one rune of the described set",
  "BetweenAny(\"a-zA-Z\"), Set(ranges,singles), BuildBetweenAny(min,max,...) read one rune iff it lies in one of the ranges or is one of the singles, otherwise fail without moving.",
  "every range string, text, position",
  "all rune sets and runes",
  ["reader.go:betweenAnyReader","reader.go:BetweenAny","reader.go:Set","reader.go:BuildBetweenAny"])
p("CheckRuleName validates the whole name",
  "CheckRuleName accepts exactly the names that start with an ASCII letter followed by letters, digits and + - . _.",
  "every string",
  "all strings",
  ["grammar.go:CheckRuleName","grammar.go:RuleName"])
p("SetRuleNames/CollectRules/CheckRules treat exactly the tagged rule fields",
  "SetRuleNames sets the name of every Rule field with a valid tag and no other field, stopping with an error at the first invalid tag; CollectRules returns the Rule fields in order; CheckRules succeeds iff every rule has an acceptable name and a reader.",
  "every grammar struct",
  "all struct shapes",
  ["grammar.go:SetRuleNames","grammar.go:CollectRules","grammar.go:CheckRules"])
p("JSON() is sound",
  "If Use(JSON()) succeeds, the consumed text is a JSON element (RFC 8259 / McKeeman grammar, at byte level).",
  "every text and start position",
  "all texts of any nesting depth",
  ["grammar/json.go:JSON"])
p("JSON() is complete",
  "Use(JSON()) on any text that is a JSON element terminates, succeeds and consumes the whole text.",
  "every JSON text of any size and depth",
  "all texts of any nesting depth",
  ["grammar/json.go:JSON"])
p("JSON() terminates",
  "Use(JSON()) returns on every text.",
  "every text",
  "non-termination cannot be observed by a test",
  ["grammar/json.go:JSON","reader.go:holeyReader"])
p("Reading with the JSON/MXT/Lua grammars is independent of earlier reads",
  "The result of Read depends only on the text and position, not on earlier reads with the same grammar value.",
  "every pair of texts",
  "depends on the history of reads",
  ["reader.go:Janus","grammar/mxt.go:MXT","grammar/lua.go:LuaString"])
p("Lua long brackets end at the first closing bracket of the same level",
  "LuaString on [=*[ ... reads up to and including the first ]=*] of the same level.",
  "every level and every content",
  "all contents",
  ["grammar/lua.go:LuaString","reader.go:Janus"])
p("Lua BinOp reads every binary operator",
  "The binop rule reads each of the binary operators of Lua 5.4 completely.",
  "every operator in every context",
  "the following text is arbitrary",
  ["grammar/lua.go:Lua"])
p("MXT() terminates on valid UTF-8 and only on it",
  "Use(MXT()) returns on every valid UTF-8 text; it can hang on ill-formed text.",
  "every text",
  "non-termination cannot be observed by a test",
  ["grammar/mxt.go:MXT","reader.go:bodyTailReader"])
p("A grammar that passes a finite check always returns",
  "If no repeated reader can succeed without consuming and no rule calls itself before something is consumed (both decided by a finite check of the rules), Use returns on every text; with readers that step over runes, on every valid UTF-8 text.",
  "every grammar, reader, text and position",
  "non-termination cannot be observed by a test, and the grammar is arbitrary",
  ["reader.go:zomReader","reader.go:manyReader","grammar.go:Rule","reader.go:pastReader","reader.go:bodyReader"])
p("Lua() returns on valid UTF-8 that ends in a control character",
  "Use(Lua()) returns on every valid UTF-8 text whose last byte is below 0x20, for example a newline; it never panics; it hangs on a name followed by an unclosed quoted string.",
  "every text and position",
  "non-termination cannot be observed by a test",
  ["grammar/lua.go:Lua","reader.go:holeyReader"])
p("Lua names are read to their end",
  "The rule Name reads the longest prefix made of a letter or underscore and letters, digits and underscores, and fails without moving if there is none.",
  "every text and position",
  "all texts",
  ["grammar/lua.go:Lua"])
p("LuaNumeral reads the longest numeral",
  "LuaNumeral reads the longest prefix that is a decimal or hexadecimal numeral with optional fraction (digits on both sides of the dot) and exponent, and fails without moving if there is none.",
  "every text and position",
  "all texts",
  ["grammar/lua.go:LuaNumeral"])
p("LuaNumeral reads every numeral of Lua 5.4",
  "LuaNumeral reads each numeral of the Lua 5.4 manual (section 3.1) completely.",
  "every numeral",
  "all numerals",
  ["grammar/lua.go:LuaNumeral"])
p("Lua quoted strings end at the first quote that is not escaped",
  "LuaString at a quote reads the contents (plain characters and the escapes of grammar/lua.go) up to the same quote; with other contents it fails without moving; with such contents up to the end of the text it never returns.",
  "every text and position, both quotes",
  "all contents; non-termination cannot be observed by a test",
  ["grammar/lua.go:LuaString","reader.go:holeyReader"])
p("Lua comments",
  "LuaComment on valid UTF-8 reads a long comment if its bracket is closed, otherwise a comment up to the next newline (not included); without a newline it fails without moving.",
  "every valid UTF-8 text and position",
  "all contents",
  ["grammar/lua.go:LuaComment"])
# Exact behaviour where a property above is false.
p("ToMarker accepts every marker",
  "ToMarker(m) returns true and sets the position to m for every integer m; if m lies outside the text, Head and Tail panic afterwards.",
  "every text, position and marker",
  "the marker is an arbitrary integer",
  ["scanner.go:ToMarker"])
p("RevTo finds the last occurrence that can be reached rune by rune",
  "RevTo(s) moves to the end of the last occurrence of s ending at a rune boundary between the last ill-formed byte or U+FFFD before the position and the position itself, and fails without moving if there is none.",
  "every text (arbitrary bytes), position and string",
  "arbitrary, possibly ill-formed text",
  ["scanner_rev.go:RevTo"])
p("Case-folding operations: exact behaviour",
  "IfFold and RevIfFold compare exactly len(s) bytes by the fold relation and panic exactly when fewer are left; ToFold finds the first folded occurrence; RevToFold panics exactly when it comes closer than len(s) to the start before a match.",
  "every text, position, string and every fold relation",
  "the fold relation of the library is arbitrary",
  ["scanner.go:IfFold","scanner_rev.go:RevIfFold","scanner.go:ToFold","scanner_rev.go:RevToFold"])
p("IfRune and IfAnyRune: exact behaviour",
  "IfRune and IfAnyRune consume exactly one matching rune, except that at the end of the text they answer true without moving when U+FFFD is asked for.",
  "every text, position and rune set",
  "arbitrary text",
  ["scanner.go:IfRune","scanner.go:IfAnyRune"])
p("While* rune operations: exact behaviour",
  "WhileRune and WhileBetween skip the maximal run and return true unless at the end of the text; WhileAnyRune and WhileMatch return whether the run is non-empty, but do not move when the run reaches the end of the text, and WhileMatch then returns false.",
  "every text, position and rune set",
  "arbitrary text",
  ["scanner.go:WhileRune","scanner.go:WhileBetween","scanner.go:WhileAnyRune","scanner.go:WhileMatch"])
p("RevIf* rune operations: exact behaviour",
  "RevIfRune and RevIfAnyRune consume one matching rune backwards; RevIfBetween and RevIfMatch consume one rune that does not match; at the start of the text each behaves as if U+FFFD stood before it with width 0.",
  "every text, position and rune set",
  "arbitrary text",
  ["scanner_rev.go:RevIfRune","scanner_rev.go:RevIfAnyRune","scanner_rev.go:RevIfBetween","scanner_rev.go:RevIfMatch"])
p("MoveRunes on any text",
  "MoveRunes(n+1) moves over the bytes of the first n decoded runes and then by the width of the encoding of the next one, which is 3 for an ill-formed byte.",
  "every text (arbitrary bytes), position and n",
  "arbitrary, possibly ill-formed text",
  ["scanner.go:MoveRunes"])
p("ScanString: exact behaviour",
  "ScanString(n) returns the next n runes and moves behind them if more than n runes are left; otherwise it returns the whole rest and false and does not move.",
  "every text, position and integer n",
  "arbitrary text",
  ["scanner.go:ScanString"])
p("64 bit reads return the number modulo 2^64",
  "If ReadUint or ReadInt succeed, they have consumed a non-empty run of digits of the base, and the value is the value of these digits (with sign) modulo 2^64.",
  "every text, position, base and bit size",
  "unbounded digit strings",
  ["read.go:ReadUint","read.go:ReadInt"])
p("SortSegments reverses segments with equal tokens",
  "After SortSegments, segments with the same token stand in exactly the reverse of their original order, if the tokens do not clash.",
  "every list of segments",
  "all lists",
  ["segment.go:SortSegments"])
p("Past, Body and BodyTail: when they return",
  "On valid UTF-8, Past, Body and BodyTail return if the tail reader, failing, stands in front of a rune again; To returns on every text on which its reader does; on an ill-formed end of fewer than three bytes Past, Body and BodyTail never return.",
  "every reader, text and position",
  "non-termination cannot be observed by a test",
  ["reader.go:pastReader","reader.go:bodyReader","reader.go:bodyTailReader","reader.go:toReader"])
p("Not: exact behaviour",
  "Not(r) fails without moving if r succeeds; otherwise it succeeds and moves over one rune, by 3 over an ill-formed byte if 3 bytes are left, and not at all otherwise or at the end of the text.",
  "every reader, text and position",
  "arbitrary readers",
  ["reader.go:notReader"])
p("Janus: exact behaviour",
  "The beginning of a Janus pair stores what its reader consumed, and stores nothing on failure; the end succeeds exactly if the stored text stands there, and then forgets it.",
  "every reader, text and state",
  "depends on the history of reads",
  ["reader.go:Janus"])
p("What a failed Use leaves in the Basket",
  "A failed Use restores the position; what it leaves in a Basket that had only segments before the position are segments of width 0 at that position.",
  "every reader, text and basket without Pick below Body",
  "depends on the history of reads",
  ["tracker.go:Update","reader.go:Use"])
p("Picked segments are reads of the text",
  "Without Pick below Body or BodyTail, each new segment in the Basket has the info of a Pick and the token of a successful read of its sub reader in the same text.",
  "every reader, text and position",
  "arbitrary readers",
  ["tracker.go:pickReader","tracker.go:Basket"])
p("Map: exact behaviour",
  "Map calls its function exactly once after each successful read of its sub reader, with the token of that read; every call made during a read stems from such a read.",
  "every reader, text and position",
  "arbitrary readers",
  ["reader.go:mapReader"])
p("The Log: exact behaviour",
  "A monitored read appends one entry and behind it those of the reads inside; level, position and info are right; ExitAt and Error are kept exactly if the entries still fit into the capacity the log had when the read began.",
  "every reader, text, log and growth policy",
  "depends on the growth of slices in the library",
  ["monitor.go:Log.Enter","monitor.go:Log.Exit","monitor.go:monitorReader"])
p("CheckRuleName accepts exactly the names that begin with a letter",
  "CheckRuleName returns no error if and only if the first byte of the name is an ASCII letter.",
  "every name",
  "all byte strings",
  ["grammar.go:CheckRuleName"])
p("CollectRules: exact behaviour",
  "CollectRules returns the rules of the struct in order if all fields are exported, and panics otherwise.",
  "every struct",
  "all struct types",
  ["grammar.go:CollectRules"])
p("JSON() hangs exactly on texts that break off inside a string",
  "Use(JSON()) never returns exactly on the texts that are JSON up to a string that is not closed; on all others it returns.",
  "every text and position",
  "non-termination cannot be observed by a test",
  ["grammar/json.go:JSON","reader.go:holeyReader"])
p("Grammars without stray Janus ends are independent of earlier reads",
  "If each end of a Janus pair follows its beginning in the same sequence, the result of Use depends only on the text and position, not on earlier reads or the tracker.",
  "every such grammar, text, position and history",
  "depends on the history of reads",
  ["reader.go:Janus","reader.go:seqReader"])
p("Lua long brackets: exact behaviour",
  "LuaString behind an opening bracket of level k reads up to the first closing bracket of the level, unless a bracket with k equal signs but no closing bracket came before: then up to the first ]] behind it; it fails without moving if there is none.",
  "every level and every valid UTF-8 content",
  "all contents",
  ["grammar/lua.go:LuaString","reader.go:Janus"])
p("Lua BinOp: exact behaviour",
  "The binop rule reads the longest binary operator standing there, of //, << and >> only the first byte, and fails without moving if there is none.",
  "every text and position",
  "the following text is arbitrary",
  ["grammar/lua.go:Lua"])
p("PrintWithPreview shows the text at which the read began",
  "Each line of PrintWithPreview ends with the first n runes of the text behind EnterAt.",
  "every text, length and log whose entries begin inside the text",
  "a byte offset is used as a rune index: tests with ASCII cannot see it",
  ["monitor.go:Log.PrintWithPreview","intl.go:subStringFrom"])
p("Coupling a grammar with a Basket changes nothing but the Basket",
  "After NewBasketFor or PickWith on chosen rules, reads give the same result and end at the same position, hang or panic exactly as before; each segment has the name of a chosen rule and is a successful read of that rule on the same text; if the rule read is chosen and succeeds, it is the last segment.",
  "every grammar without pickers of its own that restores on failure, every choice of rules, text and position",
  "all grammars and all texts",
  ["tracker.go:Scanner.NewBasketFor","tracker.go:Basket.PickWith","tracker.go:Pick","grammar.go:Grammar"])
p("Monitoring a grammar changes nothing but the Log",
  "After Monitor on chosen rules, reads give the same result, the same scanner, baskets and calls; each new entry has the name of a chosen rule and is a read of that rule at EnterAt on the text or a part of it, with its end and outcome unless they were lost.",
  "every grammar without monitors of its own, every choice of rules, text, position and growth policy",
  "all grammars and all texts",
  ["monitor.go:Log.Monitor","monitor.go:MonitorGrammar","monitor.go:monitorReader"])
p("From Basket to segmented text",
  "Segments picked by a read always build a graph, whose leafs are accepted by Segmentate and tile the whole text in order.",
  "every grammar with pickers not below Body, every text and position, also after a failed read",
  "composition of three modules on all inputs",
  ["tracker.go:Basket","graph.go:BuildGraph","graph.go:Graph.Leafs","segment.go:Scanner.Segmentate"])
p("The Basket holds exactly the parse",
  "If no picked reader matches the empty text, the Basket holds exactly the picked readers of the successful derivation in the order in which they end: nothing of alternatives given up, of lookahead or of a failed Use.",
  "every such grammar, text and position",
  "all backtracking histories",
  ["tracker.go:pickReader","tracker.go:Basket.Update","reader.go:anyReader"])
p("Map calls and Log entries happen in the order of the search",
  "The calls of Map functions and the entries of each Log are exactly those of the parsing expression search, in order and including alternatives given up later.",
  "every grammar without user functions, every text and position",
  "all backtracking histories",
  ["reader.go:mapReader","monitor.go:monitorReader"])
p("NewBasketFor(MXT()) gives reads of the MXT rules",
  "Each segment picked by NewBasketFor on the MXT grammar is a read of the rule of that name at this place of the text.",
  "every text",
  "needs a text with a non-trivial arrow",
  ["tracker.go:Scanner.NewBasketFor","grammar/mxt.go:MXT","reader.go:bodyTailReader"])
p("MXT() reads exactly the chunks",
  "On valid UTF-8, with no salt left from an earlier read, Use(MXT()) reads the longest sequence of chunks that stands there and fails without moving if there is none. A chunk is a header line (tag, name, note, arrow, salt) and the content up to the first line that begins with // and the salt, or up to the end. The whole text is read if and only if it is such a sequence.",
  "every valid UTF-8 text and position",
  "all texts; the salt is context dependent",
  ["grammar/mxt.go:MXT","grammar/mxt.go:MXTReader.Read"])
p("Files written as MXT chunks are read back completely",
  "If each content has no line that begins with // and the salt of its chunk, the file written chunk by chunk is read to its end.",
  "every list of chunks",
  "all names, salts and contents",
  ["grammar/mxt.go:MXT"])
p("BuildGraph restores every ordered forest",
  "If the segments of a forest of ordered, non-overlapping, nested and not repeated segments are given in any order, BuildGraph returns a root with exactly this forest.",
  "every such forest, every permutation of its segments",
  "all trees and all orders",
  ["graph.go:BuildGraph","graph.go:rankNodes","segment.go:SortSegments"])
p("A Basket on JSON() contains the parts of the JSON text",
  "After Use of JSON() with a Basket on any of Key, Object, Array, String, Number, Bool, Null, the Basket holds exactly the parts of these sorts of the JSON text that was read, with their positions, children before parents; every JSON text not continued by what follows is read so, and a text has one tree only.",
  "every choice of these rules, every text and position",
  "all JSON texts and all choices",
  ["grammar/json.go:JSON","tracker.go:pickReader","grammar.go:Rule.Pick"])
p("The demo json-stack prints the tree of the JSON file",
  "For each file whose begin is JSON the graph built is the tree of the JSON text that was read, below a root with the file name, and FlameStack prints one line for each path of that tree; every JSON file is accepted to its end.",
  "every file shorter than 2^63 bytes",
  "composition of grammar, basket and graph on all inputs",
  ["demo/json-stack/main.go:main","graph.go:BuildGraph","graph.go:Graph.FlameStack"])
p("What PrintWithPreview shows",
  "The preview of an entry is the n chunks (runes, or single ill-formed bytes) that follow the chunk whose index equals the byte offset EnterAt.",
  "every text, log and n",
  "all texts with multi-byte runes",
  ["monitor.go:Log.PrintWithPreview","intl.go:subStringFrom"])
p("Baskets on MXT() without WordChar",
  "Each segment of a Basket on any choice of MXT rules other than WordChar is a read of a chosen rule of that name at this place of the text.",
  "every text, position and choice",
  "all texts and choices",
  ["tracker.go:Basket.PickWith","grammar/mxt.go:MXT"])
p("A grammar reads its language",
  "If no alternative, option or repetition is left in the middle of a text when it fails (only Times does so), what a reader reads is a word of its context-free language: that of the least family of languages closed under the rules, in which Seq is concatenation, Any is union, Zom is iteration and nothing is asked of what follows.",
  "every environment of rules, every reader and text",
  "all grammars, texts and derivations",
  ["reader.go:Seq","reader.go:Any","reader.go:Zom","grammar.go:Rule.Read"])
p("Lua() reads Lua",
  "What a rule of the Lua grammar reads of a well-formed text is a phrase of the corresponding part of section 9 of the Lua 5.4 manual: tokens derived by that part, with white space and comments around them; a file Lua() reads to its end is a chunk.",
  "every rule, every well-formed text and position",
  "all Lua programs",
  ["grammar/lua.go:Lua"])
p("Lua() tells tokens apart",
  "A file Lua() reads to its end is a chunk of the manual when names, keywords and numerals are as long as can be and no name is a keyword.",
  "every well-formed file",
  "all Lua programs",
  ["grammar/lua.go:Lua"])
p("Lua() reads every chunk",
  "Every chunk of the Lua 5.4 manual is read to its end, whatever white space is between the tokens.",
  "every well-formed file",
  "all Lua programs and all spacings",
  ["grammar/lua.go:Lua"])
p("A Basket holds words of the rules",
  "If no alternative, option or repetition is left in the middle of a text when it fails, each segment of a Basket on any choice of rules is a word of the context-free language of a chosen rule of that name.",
  "every environment of rules, every choice, reader and text",
  "all grammars, texts and choices",
  ["tracker.go:pickReader","tracker.go:Basket.PickWith","grammar.go:Rule.Read"])
p("A Basket on Lua() holds phrases of Lua",
  "After reading a well-formed text, each segment of a Basket on any choice of Lua rules is a phrase of the corresponding part of section 9 of the Lua 5.4 manual.",
  "every choice of rules, every well-formed text and position",
  "all Lua programs and choices",
  ["grammar/lua.go:Lua","tracker.go:Basket.PickWith"])
p("The demo full-lua-stack",
  "Lua() never fails. For every well-formed file the demo full-lua-stack reports no invalid file, builds a graph of all that was picked, each node of which is a phrase of the rule of its name, and prints one line per node.",
  "every well-formed file shorter than 2^63 bytes",
  "composition of grammar, basket and graph on all inputs",
  ["demo/full-lua-stack/main.go:main","grammar/lua.go:Lua","graph.go:BuildGraph"])
p("Lua() rejects what does not begin with a chunk",
  "If no non-empty begin of a well-formed text is a chunk of the manual, Lua() fails.",
  "every well-formed text",
  "all texts",
  ["grammar/lua.go:Lua"])
p("Numerals are picked",
  "If a Basket on all rules of Lua() holds an expression that is a numeral, it holds the numeral too.",
  "every well-formed text",
  "all Lua programs",
  ["grammar/lua.go:Lua","tracker.go:Basket.PickWith"])
p("Value readers store what was read",
  "Bool, Int and Uint read exactly what ReadBool, ReadInt and ReadUint read and leave the value read in the field Value, false and 0 if they fail; no other reader's Value is written. Every number that fits, printed in base 8, 10 or 16, is stored.",
  "every text, position, format, base and size",
  "all digit strings and positions",
  ["reader.go:BoolReader.Read", "reader.go:IntReader.Read", "reader.go:UintReader.Read"])
p("Readers of one string or rune",
  "Lit, Fold, AtEnd, Rune, AnyRune, Between and Match read exactly the string or the one rune they describe; else they fail with a ReadError at the position they started at that names What(), and leave everything as it was.",
  "every text and position (Rune and AnyRune read U+FFFD at the end of the text)",
  "all texts, ill-formed ones included",
  ["reader.go:Lit", "reader.go:Fold", "reader.go:AtEnd", "reader.go:Rune", "reader.go:AnyRune", "reader.go:Between", "reader.go:Match"])
p("Holey, Digit, HexDigit, WS, NL and AnyFold",
  "Holey reads one rune of the range that is no hole, Digit one of 0-9, HexDigit one of 0-9, a-f, A-F, WS one of space, CR, LF, tab, NL reads LF or CR LF, AnyFold the first of its strings that is there up to case folding; else they fail without moving.",
  "every text and position (Holey: not at the end if U+FFFD is in the range; AnyFold panics at a string longer than the rest)",
  "all texts, ill-formed ones included",
  ["reader.go:Holey", "reader.go:Digit", "reader.go:HexDigit", "reader.go:WS", "reader.go:NL", "reader.go:AnyFold"])
p("Lua() reads programs written in a style to the end",
  "A program with any of the statements and expressions of the Lua 5.4 manual (long strings and comments apart) that keeps to stated rules on white space, commas and operators is read by Lua() from any position to its end, and is a chunk of the manual.",
  "every program of the style, of any size and nesting",
  "all programs, all nestings of statements and expressions",
  ["grammar/lua.go:Lua", "grammar/lua.go:LuaReader"])
p("The rules of the style may be left out",
  "Lua() reads all programs of the style with one of its rules left out: what is returned, or the condition of until and elseif, may begin with a bracket or quote; a comma may follow a function in a table; a block may end with a bare return; white space may precede a call or break behind a semicolon, names behind a comma, fields behind a comma; all operators of the manual may be used; variables may begin like a keyword.",
  "every program of the style with one rule less",
  "all programs",
  ["grammar/lua.go:Lua", "grammar/lua.go:LuaReader"])
p("What() can be read back",
  "From What() of a reader built without Seq, names and rules inside other readers the reader is recovered: its kinds, order, strings, runes, ranges and counts, whatever they are (Map, Pick, Monitor and where values are stored left out); two such readers without values that have the same What() read the same and report the same errors. The text of a ReadError determines description and position; a line of GrammarLines determines name and reader.",
  "every nesting of these readers, every string and rune in them",
  "unbounded nesting; all byte strings, all runes",
  ["reader.go:What", "reader.go:quoteRune", "reader.go:quoteBetween", "error.go:Error", "grammar.go:GrammarLines"])
p("What() identifies a reader",
  "Readers with the same What() read the same.",
  "every pair of readers",
  "all readers, all texts",
  ["reader.go:What", "reader.go:quoteRune"])
p("Lua() hangs only where a quoted string is not closed",
  "Use(Lua()) returns on every well-formed text unless the text, cut from the left into bytes that are no quotes, quoted strings, long brackets and line comments, comes to a quote with nothing but string characters up to the end of the text. In particular it returns on every text without quotes, on every text that ends in a control character, and on every text of such bytes and closed strings without the beginnings of comments and long brackets, whatever it ends in.",
  "every well-formed text, every state of the scanner",
  "unbounded texts; whether a Use returns at all cannot be tested",
  ["grammar/lua.go:LuaString", "grammar/lua.go:LuaComment", "grammar/lua.go:Lua", "reader.go:Zom", "reader.go:Holey"])
p("Comments may stand wherever a line may end",
  "If Use(Lua()) reads a ++ newline ++ b to its end, it reads the same text with a line comment before the newline to its end. This is false: behind a number, a name, a string or nil the comment is read as two minus signs and a name, behind a do, local, break, goto, label or semicolon statement it ends the program, and inside if, while, assignments and argument lists it stops the reading before the statement; behind calls, indices, tables and functions and at the beginning of blocks it does no harm.",
  "every program that is read to the end, every line comment",
  "a test shows single programs; the properties say for each of the places what happens",
  ["grammar/lua.go:Lua", "grammar/lua.go:LuaComment", "reader.go:SkipSeq"])
p("Comments before a program, and behind a semicolon",
  "Let b be white space and comments (line comments, long comments of any level) followed by a program in the style of C124: Use(Lua()) reads b to its end. Let t be any statement of the style: on t, a semicolon, comments and white space, and then r (which begins with neither of them, nor with a parenthesis or return) Use(Lua()) returns nil right before r, even if r is a further statement.",
  "every well-formed text, every state of the scanner, every program and statement of the style",
  "unbounded texts, comments of every level",
  ["grammar/lua.go:Lua", "grammar/lua.go:LuaComment", "reader.go:SkipSeq", "reader.go:Zom"])
p("Picked() hands out a copy",
  "Whatever happens to a Basket after p := b.Picked(), p shows the same segments. This is false: when Update takes a part, but not all, of the segments back, the next Add writes over the first of those that were taken back, also in p, however append grows slices; the segments below the lowest length of the Basket stay, and so does all of p once Update empties the Basket or append moves it to a new array.",
  "every Basket, every sequence of Add and Update, every growth policy of append",
  "the effect depends on the capacity of the slice and on what is read after the call; the property covers all sequences of calls and all policies",
  ["tracker.go:Basket.Picked", "tracker.go:Basket.Add", "tracker.go:Basket.Update"])
p("A Use leaves what Picked() returned before as it is",
  "Let p be what Picked() returned, and let its last Segment end by A: calls of Add and calls of Update with markers from A on leave p as it is. Every Use (of readers without Wrap), be it successful or not, changes the Basket as such calls do, with the position where it starts for A.",
  "every reader without Wrap, every state of the scanner, every Basket, every sequence of calls",
  "unbounded sequences of picks and of backtracking during one Use",
  ["tracker.go:Basket.Picked", "tracker.go:Basket.Update", "reader.go:Scanner.Use", "reader.go:Pick"])
p("SortSegments(basket.Picked()) leaves the Basket usable",
  "After SortSegments(b.Picked()) Update(m) keeps the same segments as before. This is false: SortSegments sorts the Basket itself; Update(m) then keeps exactly the segments that cover one that ends by m, so also rules around the marker that were not read to the end.",
  "every Basket with nonempty segments that do not clash, every marker",
  "a test shows one nesting; the property says for all of them which segments are kept",
  ["segment.go:SortSegments", "tracker.go:Basket.Picked", "tracker.go:Basket.Update"])
p("Lua() takes a polynomial number of Reads",
  "The number of Reads Lua() takes is at most polynomial in the length of the text. This is false: it reads n tables around an empty one, a text of 2n+4 bytes, to the end, but reads the rule Exp at least 2^(n+1)-1 times, as the entries of a Log that monitors Exp show; so no bound 2^a*(length+1)^d with a+4d <= 56 holds, not even for Exp alone.",
  "every depth n, every state of the scanner and of the Log, every text in front; every a and d with a+4d <= 56",
  "tests use shallow tables; the growth shows only with the depth, and a bound for all depths needs induction",
  ["grammar/lua.go:Lua", "reader.go:Any", "monitor.go:Log.Monitor"])
p("JSON() takes a linear number of Reads",
  "If Use(JSON()) returns on a text with n bytes left, whatever the text is and whether or not it is JSON, it called Read on all readers together at most 250*n+140 times; so any Log that monitors any rules of JSON() has at most that many new entries.",
  "every text, every position, every choice of monitored rules",
  "the bound is for all texts, also those that are no JSON and are read back and forth",
  ["grammar/json.go:JSON", "reader.go:Any", "reader.go:Zom", "monitor.go:Log.Monitor"])
p("Printed tokens, segments and log entries can be read back",
  "Different tokens have different String()s, also in front of other text; so have different segments, whatever their infos are; the String() of a LogEntry tells exactly level, position and info. Seq(\"[\", Int, \"-\", Int, \")\") reads the String() of every token back.",
  "every token, segment and LogEntry, every text around",
  "infos may contain anything, also what looks like a token; the property is for all of them",
  ["token.go:Token.String", "segment.go:Segment.String", "monitor.go:LogEntry.String", "reader.go:Int"])
p("FlameStack identifies the graph",
  "Two graphs whose infos contain no line end and that have the same FlameStack are equal (with a line end in an info they need not be).",
  "all pairs of trees",
  "all trees of any depth and width",
  ["graph.go:Graph.FlameStack", "graph.go:makeStackLines"])
p("In the flame graph a node is as wide as its segment",
  "flamegraph.pl makes a frame as wide as the numbers of all lines below it add up to; this is the length of the segment. This is false: FlameStack writes the length of the segment for each node and not what its children leave of it, so the frame of a node is as wide as the segments of the node and all nodes below it together; it is right exactly if all nodes below are empty.",
  "every tree, every node of it",
  "the sum over a subtree needs induction; the program that adds up is not part of the package",
  ["graph.go:Graph.FlameStack", "graph.go:makeStackLines", "README.adoc:Graph"])
p("MXT() takes linearly many Reads",
  "The number of Reads of a rule (the new entries of a Log that monitors it) while MXT() reads a text is at most a constant times the length of the text. This is false: Comment = To(Arrow) looks for the arrow at every place, and at every place Arrow = BodyTail(Zom(WordChar), \"-->\") runs to the next arrow and reads the word in front of it again; a header with a comment of n letters takes (n + 1)(n + 2)/2 + 6 Reads of WordChar. It is at most quadratic, for all rules and all readers together.",
  "every text, every set of monitored rules",
  "the bound is for texts of any length; a benchmark shows single lengths and single texts",
  ["grammar/mxt.go:MXT", "reader.go:BodyTail", "reader.go:To", "monitor.go:Log"])
p("Readers that do the same may be exchanged anywhere in a grammar",
  "If two readers do the same wherever they are read (same success, same place, same strings in the Janus pairs), a grammar in which one is written for the other, inside any reader and in any rule, reads every text in the same way: it returns, succeeds and ends in the same cases. Example: JSON() with Digits written as Seq(Digit, Zom(Digit)).",
  "every grammar, every reader without Fold, Bool, Int, Uint and WrapWS, every text and position",
  "there is a grammar for every pair of readers and every place of exchange; tests compare single grammars on single texts",
  ["reader.go:Seq", "reader.go:Any", "reader.go:Rule", "grammar/json.go:JSON"])
p("Laws for readers",
  "Any and Seq are associative and one argument is the reader itself, Opt(r) is Any(r, \"\"), Zom(r) is Opt(Seq(r, Zom(r))), Many(r) is Seq(r, Zom(r)), Any(Times(k, r)) is Seq(r, .., r), Any(Seq(a, xs), Seq(a, ys)) is Seq(a, Any(Seq(xs), Seq(ys))), At(At(r)) is At(r), BodyTail(d, t) is Seq(Body(d, t), t), SkipSeq is a Seq, names, Logs, Pick and Map do not change what is read: the two sides return, succeed and end in the same cases. Where it is needed, r must not move when it fails, and no Janus reader may be involved.",
  "every grammar, every such reader, every text and position",
  "the laws are about all readers and all texts",
  ["reader.go:Any", "reader.go:Seq", "reader.go:Opt", "reader.go:Zom", "reader.go:Many", "reader.go:Times", "reader.go:At", "reader.go:BodyTail", "reader.go:Body", "reader.go:SkipSeq", "reader.go:Named", "monitor.go:Monitor", "tracker.go:Pick"])
p("The laws of regular expressions hold for readers",
  "Alternatives commute, a common end or a common beginning can be taken out of alternatives, one alternative or a sequence of one reader is the reader, nested alternatives are flat, Many(r) is Seq(r, Zom(r)), Past(r) is Seq(To(r), r). These are false in general: each has a counterexample. The true forms are those of C141.",
  "every reader, every text",
  "no text shows that a law holds",
  ["reader.go:Any", "reader.go:Seq", "reader.go:Many", "reader.go:Past", "reader.go:To", "reader.go:Times", "reader.go:Janus"])
p("The place in an error lies between the beginning of the Read and the end of the text",
  "If a Read that began at position p returns a ReadError, its position is at least p and at most the length of the text. False: Any() and Any of readers that return other errors (an invalid reader, JSON(), MXT()) return a ReadError at position 0. True, and then every error is a ReadError, if there is no invalid reader, no grammar and no empty Any inside; so the text of an error of JSON() and MXT() always ends in such a position.",
  "every grammar, every reader without Fold, Bool, Int, Uint and WrapWS, every text and position",
  "tests look at single errors; the claim is about all readers and texts",
  ["error.go:ReadError", "reader.go:getDeepest", "reader.go:Any", "reader.go:InvalidReader", "grammar/json.go:JSON", "grammar/mxt.go:MXT"])
p("Which error JSON() returns",
  "An error of JSON() is one of five. Behind leading white space: if an object begins, it names '}' behind the longest beginning of the inside that is a list of members or white space; if an array begins, ']' behind the longest such list of elements; if a string begins, '\"' where the characters and escapes stop; behind a minus without digit, <19>; in all other cases \"null\" where the value should begin. Nothing inside a nested value is ever named.",
  "every text and position at which JSON() returns an error",
  "the set of wrong texts is infinite and nested without bound",
  ["grammar/json.go:JSON", "reader.go:getDeepest", "reader.go:Any", "reader.go:Seq", "error.go:ReadError"])
p("What stands before the place named by an error of JSON() can be continued to a JSON text",
  "If JSON() returns an error that names position n, the text from the beginning of the Read up to n is the beginning of some JSON text.",
  "every text and position at which JSON() returns an error",
  "for each text another continuation has to exist",
  ["grammar/json.go:JSON", "reader.go:getDeepest"])
p("JSON() names the first place where a text is wrong",
  "If JSON() returns an error that names position n, no beginning of the text that goes beyond n can be continued to a JSON text. False: in [[1 2]] it names position 1, though the first four bytes can be continued. C144 says which place it is, C145 what is true of it.",
  "every text and position at which JSON() returns an error",
  "one text refutes it; that the true place is always the one of C144 no test can show",
  ["grammar/json.go:JSON", "reader.go:getDeepest", "reader.go:Zom", "reader.go:Any"])
p("The levels in a Log tell how deeply Reads nest, and a check bounds them",
  "If a Log monitors rules of a grammar and a Read returns, the greatest level of its new entries, minus the level the Log had, is the length of the longest chain of Reads of these rules, each inside the one before. If a computable check on the grammar succeeds, that length is at most K times the number of counted bytes in the rest of the text plus a constant.",
  "every grammar without Fold, Bool, Int, Uint and WrapWS, every choice of monitored rules, every text and position",
  "the depth grows with the text; no finite set of texts bounds it",
  ["monitor.go:Log.Enter", "monitor.go:Log.Exit", "monitor.go:monitorReader", "grammar.go:Rule.Read", "reader.go:Seq"])
p("MXT() nests Reads to a constant depth",
  "Whatever the text: never are more than 17 Reads inside each other during MXT(), and no entry of a Log that monitors its rules has a level more than 6 above that of the Log.",
  "every text and position, every choice of monitored rules",
  "the claim is about all texts",
  ["grammar/mxt.go:MXT", "monitor.go:Log.Enter", "monitor.go:MonitorGrammar"])
p("JSON() nests Reads as deeply as the text nests values",
  "A Log that monitors the rule Value of JSON() reaches, for a JSON text, a level above its own that is exactly the number of values inside each other in the text (an empty array counting as if it held one). For every text, right or wrong, the levels of all rules are at most 5 b + 7 and the Reads inside each other at most 13 b + 17, where b is the number of opening brackets and braces in the rest of the text. So there is no bound for all texts.",
  "every text and position, every choice of monitored rules",
  "nesting is unbounded",
  ["grammar/json.go:JSON", "monitor.go:Log.Enter", "monitor.go:MonitorGrammar"])
p("Lua() nests Reads at most linearly in the length of the text",
  "For every text on which Lua() returns, the levels of a Log are at most 5 n + 6 above its own, the Reads inside each other at most 12 n + 20, and the Reads of Exp inside each other at most n, where n is the length of the rest of the text. For x= followed by n tables around an empty one the level grows by n + 1 at least.",
  "every text and position, every choice of monitored rules",
  "depth grows with the text; Lua() takes exponentially many Reads, so tests reach only small depths",
  ["grammar/lua.go:Lua", "monitor.go:Log.Enter", "monitor.go:MonitorGrammar"])
p("Trackers of the user do not influence reading",
  "Couple a scanner with any Tracker whose Update changes nothing but its own state and Baskets. Then every call that moves the scanner, every Read, every Use, TraceUse, TokenizeUse and CaptureUse, and Scope, Trace, While, Tokenize and Capture with functions of which the same holds, returns what it returns without a Tracker, panics or hangs exactly where it does without, and leaves the same position, Values, Janus strings, calls of Map functions and Logs. A Basket is such a Tracker.",
  "every Tracker, text, position (also outside the text), grammar and Reader, user functions included",
  "the Tracker is arbitrary code of the user",
  ["tracker.go:Tracker", "scanner.go:Scanner.Tracker", "scanner.go:Move", "scanner.go:ToMarker", "reader.go:Use", "reader.go:Body"])
p("What a Tracker is told",
  "All Trackers coupled with a scanner are told the same markers in the same order during a Read, whatever they do with them. The last of them is the position of the scanner after the Read (if there is none, it did not move); a Use that fails ends with the marker where it began. Without WrapFunc readers every marker lies between the beginning of the Read and the end of the text. The scanner that Body and BodyTail make for the body tells the Tracker nothing.",
  "every Tracker, text, position, grammar and Reader",
  "the sequence of Updates depends on all moves of a Read, failed alternatives included",
  ["tracker.go:Tracker", "scanner.go:Move", "scanner.go:ToMarker", "reader.go:Use", "reader.go:Body"])
p("One Tracker can serve several Baskets",
  "Couple a scanner with a Tracker that passes every Update on to a list of Baskets. After a Read each of these Baskets holds what it would hold if it were the Tracker of the scanner itself, and every other Basket what it would hold if there were no Tracker; results and position are the same, too.",
  "every list of Baskets, text, position, grammar and Reader",
  "the Baskets are changed by every move, also of failed alternatives",
  ["tracker.go:Tracker", "tracker.go:Basket.Update", "tracker.go:Pick", "scanner.go:Move"])
p("How a grammar is set up",
  "MustSetRuleNames returns exactly if every tagged Rule field is exported and has an acceptable tag, and panics otherwise. A struct of exported, tagged Rules that gets its names from SetRuleNames and a Reader for each Rule passes CheckRules, and its Grammar() has the tags as names, in the order of the fields. A grammar that passes CheckRules and refers to its own rules only never panics (no WrapFunc, no Fold). GrammarLines has one line `name: what` for each rule and panics exactly if some Reader is nil. JSON(), MXT() and Lua() are set up this way, with distinct names and without invalid readers.",
  "every grammar struct, every list of readers, every text and position",
  "structs and readers are arbitrary; a nil Reader only shows when it is reached",
  ["grammar.go:MustSetRuleNames", "grammar.go:SetRuleNames", "grammar.go:CollectRules", "grammar.go:CheckRules", "grammar.go:MustCheckRules", "grammar.go:GrammarLines", "grammar.go:Rule.Rule", "grammar/json.go:JSON", "grammar/mxt.go:MXT", "grammar/lua.go:Lua"])
p("Looking at a Scanner",
  "Between the parts a and b of its text, Head is a, Tail is b, Mark is the length of a, AtStart says whether a is empty and AtEnd whether b is; none of them changes the Scanner. NewScanner stands before the text, NewRevScanner behind it. ToStart and ToEnd always succeed, ToMarker goes back to every Mark of before. Get returns the part that a token marks and panics exactly if it reaches out of the text, Since the part between a Mark and the position in either order. Outside of the text Head and Tail panic, and AtStart and AtEnd are false.",
  "every text, position and token",
  "all positions of all texts",
  ["scanner.go:Head", "scanner.go:Tail", "scanner.go:Mark", "scanner.go:AtStart", "scanner.go:AtEnd", "scanner.go:ToStart", "scanner.go:ToEnd", "scanner.go:NewScanner", "scanner_rev.go:NewRevScanner", "token.go:Get", "token.go:Since"])
p("What While does",
  "While(f) calls f until it answers false, and returns whether the Scanner is then right of where it began. It returns exactly if some call answers false, and hangs exactly if f goes on answering true for ever (or does not return itself). If every true moves the Scanner right inside of the text, it returns. While with If skips all copies of a string and tells whether there were any; with the empty string it never returns.",
  "every function of the user, every text and position",
  "the number of calls is not bounded, and loops do not show in a test",
  ["scanner.go:While"])
p("Which error MXT() returns",
  "On a well-formed text MXT() fails exactly on the wrong texts: without // the error names the marker at the place of the Read; without a blank behind // and its word it names the blanks there; without a name behind the blanks it names the word characters there; without --> anywhere behind the name it names the arrow at the end of the name; with something else than the end of the line or of the text behind the longest header it names the newline there. Each wrong text has one such error, and what stands before the place named can be continued to a whole MXT text.",
  "every well-formed text, every position, every salt left by an earlier Read",
  "all texts; the place and the name of the error depend on the whole header",
  ["grammar/mxt.go:MXT", "grammar/mxt.go:Read", "reader.go:getDeepest", "reader.go:Seq", "reader.go:To", "reader.go:Many", "reader.go:Any"])
p("The functions mapped to Name, EmptyContent and Content of MXT() are told exactly the names and contents of the text",
  "Reading a well-formed text with MXT() whose rules Name, EmptyContent and Content have functions (Map) reads what MXT() reads, and the functions are called once per chunk with the place of its name and then the place of its content, in the order of the text; for a chunk without content the function of EmptyContent gets the empty place at the end of its header. If text is left, at most one further call happens: the name of a header that begins there. The list of names and contents of a text is unique, and for a file that was written chunk by chunk the places spell exactly the names and contents that were written.",
  "For all well-formed rests of texts, all positions, all function ids and all states without a salt left over; for all lists of writable chunks.",
  "The test in mxt_test.go collects the chunks of a few texts; the salt, contents with lines that look like headers, missing contents and a last broken chunk combine without bound, and calls are not undone when a later reader fails.",
  ["grammar/mxt.go:MXT", "grammar/mxt_test.go:123-134", "grammar.go:103-105", "reader.go:Map"])
p("Functions mapped to rules of a grammar do not influence reading",
  "Map functions to any of the rules of a grammar whose rules restore the position when they fail, such as JSON(), MXT() and Lua(). Then the grammar and each of its rules read as before: the same result and error, the same position and Janus strings after it, the same panics and the same inputs on which it does not end. Without the condition this is not so.",
  "For all grammars whose rules restore the position on failure and are not mapped or picked yet, all sets of rules, all functions, all texts and positions.",
  "Tests map functions to a few rules and read a few texts; that the mapped grammar reads everything as the grammar without functions does is about all texts and all 2^n sets of rules.",
  ["grammar.go:103-105", "reader.go:Map", "grammar/json.go", "grammar/mxt.go", "grammar/lua.go"])
p("The functions mapped to the rules of JSON() are told exactly the parts of the text",
  "Reading with JSON() with functions mapped to any of the rules Key, Object, Array, String, Number, Bool and Null succeeds with a JSON text in front of the rest, and the functions have been called once for each such part of this text with its place, parts of a part before the part and otherwise in the order of the text; nothing that was tried and given up is told. Every JSON text that is not continued by what follows is read with these calls.",
  "For all texts, positions and states, all sets of the seven rules and all assignments of functions.",
  "Calls are not undone when a reader fails later, and JSON() tries alternatives at every value; that no call is made for an alternative given up, for nesting of any depth, needs an induction over the text. For the rule WS it is false.",
  ["grammar/json.go:39-83", "grammar.go:103-105", "reader.go:Map"])
p("Backwards is forwards on the text written backwards",
  "On valid UTF-8 without U+FFFD the calls RevIf, RevIfAny, RevTo, RevIfRune, RevToRune, RevWhileRune, RevIfAnyRune, RevToAnyRune, RevToBetween, RevWhileBetween, RevToMatch, ToStart, AtStart and MoveRunes(-n) answer and move as If, IfAny, To, IfRune, ToRune, WhileRune, IfAnyRune, ToAnyRune, ToBetween, WhileBetween, ToMatch, ToEnd, AtEnd and MoveRunes(n) do on the text whose runes are written backwards, at the mirrored place; so does every program of these calls with branches and Scope. For RevIfBetween, RevIfMatch, RevWhileAnyRune, RevWhileMatch and RevTo of the empty string it is not so. What If, IfRune or IfAnyRune took is given back by RevIf, RevIfRune or RevIfAnyRune with the same argument, and the other way round.",
  "For all texts of runes other than U+FFFD, all positions between runes, all arguments and all programs of these calls.",
  "The forward and the backward calls are separate loops over bytes, one with range and one with DecodeLastRune; that they agree is about all texts and positions, and a program may combine them without bound.",
  ["scanner.go:72-355", "scanner_rev.go:19-250", "intl.go:20-60"])
p("A function mapped to a rule is only told texts of that rule",
  "Functions mapped to rules of a grammar are only told places of parts of the text that are in the language of their rule, in reads that succeed and in reads that fail, for rules that are not used below Body or BodyTail. For Key, Object, Array, String, Number, Bool and Null of JSON() these parts are JSON strings, objects, arrays, numbers, true, false and null; for Lua() phrases of the rule. Below BodyTail it is not so: the place is counted from the start of the part.",
  "For all grammars whose rules restore the position on failure, all choices of functions and rules, all texts, start positions and outcomes.",
  "What is told during a failing read depends on everything that was tried and given up; tests look at the calls of reads that succeed.",
  ["reader.go:634-655", "grammar.go:103-105", "grammar/json.go:40-83", "grammar/lua.go:60-234", "grammar/mxt.go:30-65"])
p("What stands before the position does not matter to readers",
  "A reader does the same wherever the rest of the text stands: it succeeds, fails, panics or hangs alike behind any beginning, goes equally far, leaves the same values and Janus strings, and calls the same functions in the same order for places of the same length. Without Body and BodyTail these places lie equally far. If no reader in it is invalid, empty or a whole grammar, a failing read gives the same error for the place that lies equally far. Reading JSON, MXT or Lua in the middle of a text is reading the rest on its own. An Any of invalid readers names place 0 wherever it stands, and functions below Body are told places that do not move.",
  "For all readers and grammars (Wrap functions only if they themselves do not look back), all texts, beginnings and outcomes.",
  "It relates two runs on two texts; every reader, loop and error must keep the difference of the places, and tests nearly always start at the beginning of a text.",
  ["reader.go:24-1014", "error.go:6-32", "grammar/json.go:69-83"])
p("What stands before the position does not matter to forward Scanner methods",
  "Every program made of If, To and While methods, Move and MoveRunes forwards, ToEnd, AtEnd, Scope, While and Use gives the same answer and goes equally far behind any beginning; Capture, Trace and ScanString return the same strings, ReadRune, ReadBool, ReadInt and ReadUint the same values.",
  "For all such programs, all texts and beginnings shorter than 2^63 bytes.",
  "A statement about all programs and pairs of texts, including moves whose sum exceeds an int.",
  ["scanner.go:29-397", "read.go:10-213", "token.go:101-107"])
p("What stands behind the position does not matter to backward Scanner methods",
  "Every program made of the Rev methods, Move and MoveRunes backwards, ToStart, AtStart, Scope and While gives the same answer and ends at the same position whatever follows; LineCol gives the same line and column.",
  "For all such programs, all texts and rests shorter than 2^63 bytes.",
  "A statement about all programs and pairs of texts.",
  ["scanner_rev.go:10-250", "scanner.go:309-355"])
p("What is added to Baskets and Logs lies equally far behind any beginning",
  "If the same text stands behind two beginnings, a reader without Body and BodyTail adds the same segments to the Baskets and the same entries to the Logs, with all places moved by the difference of the beginnings, provided that the old segments end before the position and the Logs are empty. An old segment that ends behind the position is dropped when the scanner moves.",
  "For all readers and grammars without Body and BodyTail (Wrap functions only if they themselves do not look back), all texts, beginnings and outcomes.",
  "Segments are added and dropped again whenever the scanner is moved back; tests start with an empty Basket at the beginning of a text.",
  ["tracker.go:31-91", "monitor.go:21-87", "scanner.go:321-382"])
p("Where a grammar keeps its rules, and which others there are, does not matter",
  "A reader behaves the same, step by step and in every observable effect including errors, if the rules that it reaches are kept elsewhere under the same names, or if rules that it does not reach are added, changed or removed. In particular JSON(), Lua() and MXT() behave the same amid the rules of other grammars. A rule without Reader panics until it gets one, and names of rules show in errors.",
  "For all readers, grammars, sets of reached rules, ways to move them, texts, positions and outcomes (results, panics and endless reads).",
  "Grammars are built once per test and never combined; a rule that is reached by accident can only be excluded for all readers at once.",
  ["grammar.go:19-122", "grammar/json.go:39-75", "grammar/mxt.go:20-60", "grammar/lua.go:60-230"])
p("LineCol tells positions apart and orders them",
  "For two positions of a text, the one further behind has the later line, or the same line and the later column; so line and column identify the position. The lines differ by the number of newlines between the positions, and on one line the columns differ by the number of bytes between them, tabs counted as tab. Tabs without width hide positions, and tabs that are too wide for an int give negative columns.",
  "For all texts, all pairs of positions and all positive tab widths for which the width of the text fits an int.",
  "Tests look at single positions; order and uniqueness are about all pairs, also those between a carriage return and its newline.",
  ["scanner.go:309-318"])
p("Entries of a Log list a forest, and can be printed",
  "The entries that a Read adds to a Log list a forest in preorder: the first is one level below the level that the Log had, every entry is directly followed by those of the Reads inside it at the next level, and none is above the first. So String does not panic for any of them if the level was not negative. After calls of Enter, Exit and Reset from outside, names, positions and levels are those of the Enters since the last Reset, and String does not panic if there have never been more Exits than Enters; otherwise it can.",
  "For all readers, environments and states in which the Read ends, and for all sequences of calls with any entries, any growth of append.",
  "Tests print the Log of one grammar; levels have to fit for every nesting of monitored readers, also inside Body and after failed branches, and for every sequence of calls.",
  ["monitor.go:17-19", "monitor.go:32-47", "monitor.go:55-70", "monitor.go:78-83"])
p("Reads cut well-formed UTF-8 between runes",
  "If a text is well-formed UTF-8 and the literals of a grammar are, then a Read that begins between two runes ends between two runes, whether it succeeds or fails. Functions mapped to readers are told whole runes, picked segments consist of whole runes, and entries of a Log begin and end between runes. JSON(), MXT() and Lua() have only such literals. A literal that is half a rune can end inside a rune.",
  "For all well-formed texts, positions between runes, and grammars of the readers in Peg.v (not Fold, Bool, Int, Uint, Wrap) with well-formed literals; calls and entries without Body and BodyTail, segments with nothing picked inside bodies.",
  "Tests use ASCII; a cut inside a rune needs runes of several bytes next to every combination of readers that step over text rune by rune.",
  ["reader.go:Lit", "reader.go:Past", "reader.go:To", "reader.go:Not", "reader.go:Janus", "reader.go:Body", "reader.go:BodyTail", "scanner.go:MoveRunes"])
json_lines="\n".join(json.dumps(x,ensure_ascii=False) for x in P)+"\n"
open("/verif/properties.jsonl","w").write(json_lines)
print(len(P))
