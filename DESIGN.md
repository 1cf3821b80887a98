# Formal model of aiq/tok in Rocq (Coq 8.16.1)

The model is a set of executable Gallina functions in `rocq/theories/`; every definition cites the
Go lines it models. Nothing in `/repo` is run. Everything below is planned before the proofs and
updated as the model grows (the section "Status" at the end is the current state).

## 1. How the code is modelled

| Go | model |
|---|---|
| `string` | `list byte` (`Coq.Init.Byte.byte`, so no well-formedness hypothesis is needed) |
| `rune`, `int`, `Marker` | `Z`; wrap-around is written explicitly (`wrap64`, `wrapu64`) where the code can overflow (`Move`, `LineCol`, `ReadInt`, `ReadUint`) |
| `Scanner` | record `full`, `pos : Z` (may be out of range: `ToMarker` accepts anything), `trk : option nat` (the coupled Basket) |
| heap objects reachable from readers | record `heap`: baskets, Janus cells, values stored by Bool/Int/Uint readers, Map call trace, logs |
| panics (slice out of range, nil Reader) | `Panic` result |
| loops without a structural bound, recursion through `*Rule` | explicit fuel, result `Fuel`; "terminates" = some fuel gives another result, "hangs" = every fuel gives `Fuel`. Fuel monotonicity is proved |
| `Reader` interface values | inductive `reader`, one constructor per reader type; `*Rule` pointers are indices in a rule table `env` |
| `ScopeFunc`, `ReadFunc`, `MatchFunc`, `MapFunc` | arbitrary state transformer / list of moves plus result / `Z -> bool` / trace entry |
| slices of the Log | backing arrays with length, capacity and a growth policy, so that stale pointers are visible |
| `unicode/utf8`, `strings`, `sort.Stable` | re-implemented from the Go library's documented algorithm (GoStr.v, GoSort.v); these are not part of /repo and are trusted |
| Unicode tables (simple folding, IsPrint) | fields of a class `GoLib` that theorems quantify over |

## 2. Files

Model (each definition cites the Go lines): `State`, `Scanner` (scanner.go, scanner_rev.go, intl.go, token.go,
error.go, Use/Trace of reader.go), `ReadVal` (read.go), `Segment`, `Graph`, `LogModel` (monitor.go), `Reader`
(reader.go, pickReader, monitorReader, Rule), `Grammar` (grammar.go, rewriting of rules by tracker.go and
monitor.go), `Json`, `Mxt`, `Lua`. Trusted library reading: `GoStr`, `GoSort`. `Tests` runs test cases of
/repo/*_test.go on the model (fidelity checks, not proofs).

Specifications that do not mention the model's helpers: `Spec` (UTF-8, positions, results), `SpecSeg`
(intervals, trees), `SpecJson`, `SpecLua`, `SpecLuaLex`, `SpecMxt`, `SpecTree` (the tree of a JSON text),
`SpecCfg` (the context-free language of a reader), `SpecLuaSyntax` (section 9 of the Lua 5.4 manual over tokens),
`SpecLuaStyle` (Lua programs written in a certain style).

Proof layers: `*Facts` (exact behaviour per operation), `ReaderFwd` (one induction over all readers with an
abstract invariant), `ReaderSim`/`ReaderTrans`/`ReaderSync` (two runs side by side), `ReaderSteps`/`ReaderScan`
(each combinator in terms of its parts), `Peg`/`PegFacts` (readers as a parsing expression grammar over the rest
of the text, proved equivalent to the state machine), `PegBytes` (readers of one ASCII character), `PegTotal`
(a decidable certificate of termination), `LuaLex`/`LuaComment`, `MxtFacts`, `Marks`/`MarksFacts` (the semantics with the
segments picked), `Gather` (the same for the parse alone), `Trace`/`TraceFacts`/`HearFacts` (the semantics with the
calls of Map functions and the entries of Logs), `TrackFacts` (a grammar with and without pickers or monitors),
`JsonTree` (the picked JSON grammar gives the tree), `CfgFacts` (parsing expressions read words of the context-free
language), `LuaSyntax` (the rules of the Lua grammar against the manual), `LuaLens` (texts that are no phrases),
`LuaStyleKit`, `LuaStyleRules`, `LuaStyleHead`, `LuaStyleExp`, `LuaStyleSem`, `LuaStyleList`, `LuaStyleStat` (programs of the style
are read: what each sort of text must be followed by, rule by rule),
`PickFrom` (where the segments of a basket come from).

Statements: `Prop*.v`, one theorem group per property, with a concrete case (`Example`) beside each.

## 3. Plan per property

Shapes: (E) exact equation of an operation, (I) invariant by induction, (R) refinement to a small spec,
(X) refutation by a concrete witness of a statement the code violates, beside the exact behaviour.

- C01 (I) all public calls as programs over the API; induction over programs. C02 (X)+(E). C03 (E).
- C04 (E) for arbitrary wrapped state transformers. C05, C06, C10, C17, C23 (E) against prefix/occurrence specs.
- C02, C07, C08, C09, C11, C12, C14, C15, C20, C30, C43, C44, C47, C52, C54, C55, C56, C58, C59, C60, C63-C66,
  C72: the documented contract is violated in corner cases; exact theorem or the domain where it holds, and (X).
  The true behaviour is a property of its own (C75-C97), proved.
- C13, C16 (R) to a list of scalar values. C18-C22 (R) to the value of a digit list; the wrap-around is in the model.
- C24-C28 (E) interval algebra over Z. C29-C31 Go's `sort.Stable` (insertion blocks + symMerge) modelled
  in full; sortedness and permutation by induction.
- C32-C36 (I) tree invariant; rankNodes modelled with its mutations.
- C37-C50 (I)/(E) by induction over all reader graphs; C42 divergence for every fuel; C49, C50 simulation
  between a reader graph and its erasure.
- C51-C56 (I) basket and log invariants along every run, log with memory model.
- C57-C60 (E). C61-C63 (R) to an inductive JSON grammar, both directions, hanging characterised exactly.
- C64 (I) two runs side by side. C65, C66, C70-C74 (R) to byte level specs of Lua's tokens.
- C67-C69 (I) termination by a lexicographic measure (rest of the text, rank of the rule).
- C98 (E)+(X). C99, C100 (I) two runs side by side, and (R) of segments and entries to reads of the rules.
- C101 composition of C51, C34 and C25. C102, C103 (R) to parsing expression semantics with output. C104 (X).
- C105, C106 (R) of the MXT grammar to a byte level description, both directions.
- C107 (R) of BuildGraph to its inverse. C108, C109 (R) of the picked JSON grammar to the tree of the text, and of
  the demo json-stack from Use to FlameStack. C110, C111 what holds of C98 and C104.
- C112 (I) over parsing expression derivations. C113 (R) rule by rule to the grammar of the manual. C114, C115 (X).
- C116, C117 (I) every segment is a parse of a rule. C118 the demo full-lua-stack from Use to FlameStack. C119, C120 (X).
- C121-C123 (E) the leaf readers against what the scanner operations were proved to do.
- C124 (E, style) the other direction of C113: an inductive set of Lua programs (SpecLuaStyle.v) each of which Lua() reads
  to the end; C125 (X) shows that its rules are needed.
- C126 (R) What() against a decoder of its notation (SpecWhat.v), by induction over readers; C127 (X) pairs of readers with
  the same What().
- C128 (R) the grammar with strings that stop at the end of the text always returns (C68); by induction over its derivations
  Lua() does the same as long as no quoted string breaks off (SpecLuaOpen.v).
- C129 (refuted), C130 (R) comments: white-space-only skipping between the parts of statements and expressions, comments too at the
  beginning of blocks and around arguments; the derivations of C124 behind a text the skipper of comments reads.
- C131 (refuted), C132 (P), C133 (refuted) Baskets in memory: BasketMem.v models tracker.go:30-54 with arrays, lengths and
  capacities; it refines the lists used elsewhere (op_list), and a slice that was handed out keeps what lies below the length of the Basket
  (op_view). For reads the invariant of ReaderFwd.v counts the calls of Add and Update and their markers. Only slices that begin at
  the beginning of their array occur.
- C134 (refuted), C135 (P) the number of Reads: Cost.v is the relation `eats` with a counter of the calls of Read; log_counts ties
  it to the number of entries of a Log. The linear bound for JSON() is a potential argument per reader (CostBound.v): each reader has
  bounds for success and for failure of the form (calls per byte eaten) + constant, and nullable loops are excluded. The exponential
  lower bound for Lua() is by induction on the depth: Exp = Any(Seq(FinalExp, BinOp, Exp), FinalExp) reads FinalExp twice.
- C136 (P), C137 (P), C138 (refuted) printed forms: the numbers are split off at the first byte that is no digit (ShowFacts.v,
  num_split); lines of the flame stack that follow a node do not begin like its children, because the numbers of the children differ.
- C139 (refuted; quadratic bound proved) number of Reads of MXT(): lin and quad (MxtCost.v) bound the calls by the length of the rest, and
  by the length of the rest for every byte consumed; To of a lin reader is quad.
- C140 exchange of readers: Exchange.v, [turns] is the least relation that contains [does] and is closed under all readers; proved by induction
  over [eats].  C141 the laws (ReaderLaws.v), C142 (refuted) laws that need conditions; the conditions are [restoring] and [no_janus].
- C143 to C146 errors: Blame.v has [blames], the error a failing Read returns as an inductive relation beside [eats]; JsonBlame.v has the specification
  [complains] (only from SpecJson) and the proof that JSON() returns that error: every word of JSON is read at least, so what is read behind a bracket is the longest.
- C147 to C150 depth: Depth.v has [dives], the semantics of Peg.v with the length of the longest chain of Reads inside each other; DepthFacts.v ties it to
  the levels of Log entries; DepthBound.v has a check ([shallow]: potentials of the rules, paid for by consumed bytes that count) whose success bounds the depth.
  For MXT() no byte counts, for JSON() opening brackets and braces, for Lua() all bytes.  SpecNest.v says how deeply a JSON text nests values.
- C151 to C153 Trackers of the user: Watch.v repeats the definitions of Scanner.v, ReadVal.v and Reader.v over states with the state of a Tracker, which Move
  and ToMarker tell the position.  The repetition is checked: C151_basket_is_a_tracker proves that with Basket.Update as Tracker every call, Read and Use is the one
  of the other files.  WatchFacts.v runs two Trackers side by side, for any relation of states that moves and deeds of readers keep; WatchBase.v compares with the
  other files; WatchFwd.v bounds the markers.
- C154, C155 setting up grammars and looking at Scanners: PropSetup.v, on top of C60.
- C156 While: PropWhile.v.
- C157 the error of MXT(): PropMxtBlame.v. MxtBlame.v has the texts that are wrong and the errors of the rules; the errors come from Blame.v and the readings from MxtFacts.v.
- C158 the calls of the functions mapped to Name, EmptyContent and Content: PropMxtParts.v. MxtParts.v has the list of names and contents of a text and the calls of each rule (from Trace.v).
- C159 functions mapped to rules do not influence reading: PropJsonHear.v, from ReaderTrans.v through Silent.v (readers without calls, grammars with mapped rules).
- C160 the calls of the functions mapped to the rules of JSON(): PropJsonHear.v. JsonHear.v has the calls of each rule, along the tree of a JSON text (SpecTree.v, JsonTree.v).
- C161 backward calls are forward calls on the text written backwards: PropMirror.v, from C05-C14 through Mirror.v.
- C162 mapped functions are only told texts of their rules: PropHearFrom.v. HearFrom.v follows every call back to a parse of its rule; the texts of the rules are those of C112, C113 and C66.
- C163 what stands before the position does not matter to readers, C164 nor to forward Scanner methods, C165 what stands behind it does not matter to backward ones: PropShift.v. Shift.v and ShiftRev.v run the same calls on two texts side by side.
- C166 what is added to Baskets and Logs lies equally far: PropShift.v, Shift.v.
- C167 where rules are kept and which others there are does not matter: PropWire.v, Wire.v. PropAll.v adds to C99 and C100 that NewBasketFor and MonitorGrammar reach every rule, and what happens to rules without Reader.
- C168 LineCol tells positions apart and orders them: PropLine.v.
- C169 levels of the entries of a Log: PropLogCalls.v, LogCalls.v. `entry_text` is LogEntry.String with the panic of strings.Repeat for negative levels (`entry_string` is its result otherwise); Print and PrintWithPreview hand the entry to fmt.Println, which prints a notice instead of panicking, and that notice is not modelled.
- C170 Reads cut well-formed UTF-8 between runes: PropEdges.v, Edges.v.

## 4. Trusted base

- Coq 8.16.1 kernel. `Print Assumptions` says "Closed under the global context" for every theorem named in
  MANIFEST.json: no axiom, neither own nor of the standard library, is used. (`coqchk -o` lists for the loaded
  library the axioms `Coq.ssr.ssrunder.Under_rel.*`, which come with `lia`'s dependencies; no theorem uses them.)
- The reading of the Go source (each definition cites lines), and of Go's `utf8`, `strings`, `strconv`, `sort`
  packages.
- Unicode tables (simple case folding, IsPrint) and the growth policy of slices are fields of the class `GoLib`;
  theorems hold for every instance.
- Integers: positions and lengths are unbounded `Z`; overflow is modelled where the code computes with caller
  supplied numbers (`Move`, `LineCol`, `Token.Len`, `ReadInt`, `ReadUint`).
- Not modelled: the writing to stdout of `Log.Print*` (their lines are modelled), the demo programs
  (but for the calls demo/json-stack and demo/full-lua-stack make after reading the file, PropDemo, PropLuaBasket), memory limits, user supplied Trackers
  that do more in Update than changing their own state and Baskets (Trackers that do not are in Watch.v), data races (the package has no concurrency), side effects of user callbacks other than
  moving the scanner, stack overflow (deep recursion is
  unbounded recursion in the model).

## 5. Status

See MANIFEST.json. Statements that are false of the code are kept in view as `..._refuted` theorems with the
exact behaviour beside them. Mutation tests of the theorems are logged in seeded/LOG.jsonl; `tools/mut.py` is
the driver and `tools/muts*.py` are the mutants.
