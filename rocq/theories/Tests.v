(** Tests.v - the test cases of /repo/*_test.go run on the model (fidelity checks,
    not proofs). *)
From Verif Require Import Graph Reader Grammar Json Mxt Lua.

(** A concrete library instance for the tests: no folding outside ASCII, everything
    from U+00A1 to U+FFFD printable, slices double their capacity. *)
#[export] Instance testlib : GoLib := {
  lib_fold := fun _ _ => false;
  lib_print := fun r => (0xA1 <=? r) && (r <=? 0xFFFD);
  lib_grow := fun c => (2 * c)%nat }.

Definition ht {A} (m : M A) (s : scanner) : option (bytes * bytes) :=
  match m (mkSt s heap0) with
  | Ok (_, s') => Some (firstn (Z.to_nat (pos (sc s'))) (full (sc s')),
                        skipn (Z.to_nat (pos (sc s'))) (full (sc s')))
  | _ => None
  end.
Definition fwd {A} (inp : string) (m : M A) := ht m (new_scanner (lit inp)).
Definition bwd {A} (inp : string) (m : M A) := ht m (new_rev_scanner (lit inp)).
Definition exp (h t : string) := Some (lit h, lit t).
Definition is_upper (r : Z) := in_range 0x41 r 0x5A.
Definition is_lower (r : Z) := in_range 0x61 r 0x7A.
Definition is_digit (r : Z) := in_range 0x30 r 0x39.
Notation "x == y" := (x = y) (at level 70, only parsing).
Ltac t := vm_compute; reflexivity.

(* scanner_test.go *)
Example test_scanstring :
  match (let* a := scan_string 5 in let* b := scan_string 3 in let* c := scan_string 8 in
         let* d := scan_string 1 in let* e := scan_string 20 in ret [a; b; c; d; e])
        (init_st (lit "Hi, 世界! I saw a ☃ in w2s34")) with
  | Ok (l, _) => Some l | _ => None end
  = Some [(lit "Hi, 世", true); (lit "界! ", true); (lit "I saw a ", true); (lit "☃", true);
          (lit " in w2s34", false)]. Proof. t. Qed.
Example test_if : fwd "select *" (if_str (lit "select")) == exp "select" " *". Proof. t. Qed.
Example test_ifany : fwd "SELECT *" (if_any [lit "select"; lit "Select"; lit "SELECT"]) == exp "SELECT" " *". Proof. t. Qed.
Example test_to : fwd "select * from events" (to_str (lit "from")) == exp "select * " "from events". Proof. t. Qed.
Example test_iffold : map (fun s => fwd "select *" (if_fold (lit s))) ["select"; "Select"; "SELECT"]%string
  == repeat (exp "select" " *") 3. Proof. t. Qed.
Example test_tofold : map (fun s => fwd "select * from events" (to_fold (lit s))) ["from"; "From"; "FROM"]%string
  == repeat (exp "select * " "from events") 3. Proof. t. Qed.
Example test_tofold2 : fwd "select * from" (to_fold (lit "FROM")) == exp "select * " "from". Proof. t. Qed.
Example test_ifrune :
  match (let* a := if_rune 0x78 in let* b := if_rune 0x61 in let* c := if_rune 0x4E16 in
         let* d := if_rune 0x3E in let* e := if_rune 0x7A in let* f := if_rune 0x2D in
         ret [a; b; c; d; e; f]) (init_st (lit "a世z")) with
  | Ok (l, s) => Some (l, pos (sc s)) | _ => None end = Some ([false; true; true; false; true; false], 5).
Proof. t. Qed.
Example test_torune : fwd "i am" (to_rune 0x20) == exp "i" " am" /\ fwd "...?" (to_rune 0x3F) == exp "..." "?"
  /\ fwd "1. end" (to_rune 0x31) == exp "" "1. end". Proof. repeat split; t. Qed.
Example test_whilerune : fwd "-123" (while_rune 0x2D) == exp "-" "123" /\ fwd "....a" (while_rune 0x2E) == exp "...." "a"
  /\ fwd "   " (while_rune 0x20) == exp "   " "". Proof. repeat split; t. Qed.
Example test_ifanyrune : fwd "-123" (if_any_rune (lit "-+")) == exp "-" "123" /\ fwd "+123" (if_any_rune (lit "-+")) == exp "+" "123".
Proof. repeat split; t. Qed.
Example test_toanyrune : fwd "123,56" (to_any_rune (lit " ,")) == exp "123" ",56" /\ fwd "123 56" (to_any_rune (lit " ,")) == exp "123" " 56"
  /\ fwd "12356;" (to_any_rune (lit ";.")) == exp "12356" ";" /\ fwd "12356." (to_any_rune (lit ";.")) == exp "12356" ".".
Proof. repeat split; t. Qed.
Example test_whileanyrune : fwd "-123" (while_any_rune (lit "-")) == exp "-" "123"
  /\ fwd "256,0" (while_any_rune (lit "1234567890")) == exp "256" ",0"
  /\ fwd "12344512" (while_any_rune (lit "1234567890")) == exp "" "12344512". Proof. repeat split; t. Qed.
Example test_between : fwd "abba" (if_between 0x61 0x7A) == exp "a" "bba"
  /\ fwd "pinball2000" (to_between 0x30 0x39) == exp "pinball" "2000"
  /\ fwd "pinball2000" (while_between 0x61 0x7A) == exp "pinball" "2000". Proof. repeat split; t. Qed.
Example test_match : fwd "PIN" (if_match is_upper) == exp "P" "IN" /\ fwd "PINball" (to_match is_lower) == exp "PIN" "ball"
  /\ fwd "123..." (while_match is_digit) == exp "123" "...". Proof. repeat split; t. Qed.
Definition lc (diff : Z) (inp : bytes) (tab : Z) : option (Z * Z) :=
  match (move diff ;; line_col tab) (init_st inp) with Ok (x, _) => Some x | _ => None end.
Example test_linecol :
  [lc 3 (lit "abcdefgh") 1; lc 0 (lit "abcdefgh") 1; lc 0 [] 1; lc 3 (lit "abc") 1;
   lc 8 ([x0a] ++ lit "abcd" ++ [x0a; x0a] ++ lit "efgh" ++ [x0a; x0a]) 1;
   lc 0 (lit "abc" ++ [x0a] ++ lit "def" ++ [x0a] ++ lit "ghi") 1;
   lc 8 ([x0a] ++ lit "abcd" ++ [x0a; x0a; x09] ++ lit "efgh" ++ [x0a; x0a]) 4;
   lc 3 ([x09; x09] ++ lit "abcdefgh") 4; lc 0 ([x09; x09] ++ lit "abcdefgh") 4]
  = [Some (1,4); Some (1,1); Some (1,1); Some (1,4); Some (4,2); Some (1,1); Some (4,5); Some (1,10); Some (1,1)].
Proof. t. Qed.
Example test_moverunes :
  match (let* a := move_runes 3 in let* p := mark in let* b := move_runes 1 in let* q := mark in
         let* c := move_runes (-2) in let* r := mark in let* d := move_runes (-2) in let* s := mark in
         ret [(a, p); (b, q); (c, r); (d, s)]) (init_st (lit "a@ä!")) with
  | Ok (l, _) => Some l | _ => None end = Some [(true, 4); (true, 5); (true, 2); (true, 0)].
Proof. t. Qed.
(* scanner_rev_test.go *)
Example test_rev1 : bwd "* from" (rev_if (lit "from")) == exp "* " "from"
  /\ bwd "* From" (rev_if_any [lit "from"; lit "From"; lit "FROM"]) == exp "* " "From"
  /\ bwd "select * from events" (rev_to (lit "from")) == exp "select * from" " events". Proof. repeat split; t. Qed.
Example test_rev2 : map (fun s => bwd "* from" (rev_if_fold (lit s))) ["from"; "From"; "FROM"]%string == repeat (exp "* " "from") 3
  /\ map (fun s => bwd "select * from events" (rev_to_fold (lit s))) ["from"; "From"; "FROM"]%string
     == repeat (exp "select * from" " events") 3
  /\ bwd "select * from events" (rev_to_fold (lit "SELECT")) == exp "select" " * from events". Proof. repeat split; t. Qed.
Example test_rev3 : bwd "xyz" (rev_if_rune 0x7A) == exp "xy" "z" /\ bwd "i am" (rev_to_rune 0x20) == exp "i " "am"
  /\ bwd "?..." (rev_to_rune 0x2E) == exp "?..." "" /\ bwd "1. end" (rev_to_rune 0x31) == exp "1" ". end"
  /\ bwd "123-" (rev_while_rune 0x2D) == exp "123" "-" /\ bwd "a...." (rev_while_rune 0x2E) == exp "a" "...."
  /\ bwd "   " (rev_while_rune 0x20) == exp "" "   ". Proof. repeat split; t. Qed.
Example test_rev4 : bwd "123," (rev_if_any_rune (lit ":,")) == exp "123" "," /\ bwd "123:" (rev_if_any_rune (lit ":,")) == exp "123" ":"
  /\ bwd "123,56" (rev_to_any_rune (lit " ,")) == exp "123," "56" /\ bwd "123 56" (rev_to_any_rune (lit " ,")) == exp "123 " "56"
  /\ bwd "+123" (rev_to_any_rune (lit "+-")) == exp "+" "123" /\ bwd "-123" (rev_to_any_rune (lit "+-")) == exp "-" "123"
  /\ bwd "123-" (rev_while_any_rune (lit "-")) == exp "123" "-"
  /\ bwd "-256" (rev_while_any_rune (lit "1234567890")) == exp "-" "256"
  /\ bwd "12344512" (rev_while_any_rune (lit "1234567890")) == exp "" "12344512". Proof. repeat split; t. Qed.
(* intl_test.go *)
Example test_intl : get_prefix (lit "Hi, 世界") 5 = (lit "Hi, 世", true)
  /\ sub_string_from (lit "abcdef") 0 3 = lit "abc" /\ sub_string_from (lit "äbcdef") 0 3 = lit "äbc"
  /\ sub_string_from (lit "äöü") 0 4 = lit "äöü" /\ sub_string_from (lit "äöü") 2 4 = lit "ü". Proof. repeat split; t. Qed.
(* read_test.go *)
Definition ri (inp : string) (base bits : Z) : option (Z * option err * bytes) :=
  match read_int base bits (init_st (lit inp)) with
  | Ok ((v, e), s) => Some (v, e, skipn (Z.to_nat (pos (sc s))) (full (sc s))) | _ => None end.
Definition ru (inp : string) (base bits : Z) : option (Z * option err * bytes) :=
  match read_uint base bits (init_st (lit inp)) with
  | Ok ((v, e), s) => Some (v, e, skipn (Z.to_nat (pos (sc s))) (full (sc s))) | _ => None end.
Definition ok (v : Z) (t : string) : option (Z * option err * bytes) := Some (v, None, lit t).
Example test_readint :
  [ri "22" 10 8; ri "1c" 16 8; ri "0" 16 8; ri "-70" 8 8; ri "-128" 10 8; ri "127" 10 8; ri "-2345" 10 8;
   ri "128" 10 8; ri "-0046" 10 8; ri "32-blocks" 10 8; ri "18" 10 16; ri "30df" 16 16; ri "-4E3" 16 16;
   ri "7561" 8 16; ri "-32768" 10 16; ri "32767" 10 16; ri "32768" 10 16; ri "345wxyz" 10 16;
   ri "-2147483648" 10 32; ri "2147483647" 10 32; ri "-2147483649" 10 32; ri "42" 10 64; ri "aBcD" 16 64;
   ri "-4a3F" 16 64; ri "-9223372036854775808" 10 64; ri "9223372036854775807" 10 64;
   ri "9223372036854775808" 10 64; ri "777 oth" 10 64]
  = [ok 22 ""; ok 28 ""; ok 0 ""; ok (-56) ""; ok (-128) ""; ok 127 ""; ok (-23) "45"; ok 12 "8"; ok (-46) "";
     ok 32 "-blocks"; ok 18 ""; ok 12511 ""; ok (-1251) ""; ok 3953 ""; ok (-32768) ""; ok 32767 ""; ok 3276 "8";
     ok 345 "wxyz"; ok (-2147483648) ""; ok 2147483647 ""; ok (-214748364) "9"; ok 42 ""; ok 43981 "";
     ok (-19007) ""; ok (-9223372036854775808) ""; ok 9223372036854775807 ""; ok 922337203685477580 "8"; ok 777 " oth"].
Proof. t. Qed.
Example test_readint_fail : ri "-abcd" 10 64 = Some (0, Some (EReadError 0 (lit "integer")), lit "-abcd"). Proof. t. Qed.
Example test_readuint :
  [ru "18" 10 8; ru "1c" 16 8; ru "F0" 16 8; ru "70" 8 8; ru "0" 10 8; ru "255" 10 8; ru "2345" 10 8; ru "256" 10 8;
   ru "00460" 10 8; ru "0" 10 16; ru "65535" 10 16; ru "65536" 10 16; ru "4294967295" 10 32; ru "4294967296" 10 32;
   ru "30df" 16 64; ru "4E3" 16 64; ru "7561" 8 64; ru "18446744073709551615,0" 10 64; ru "1170343number" 10 64]
  = [ok 18 ""; ok 28 ""; ok 240 ""; ok 56 ""; ok 0 ""; ok 255 ""; ok 234 "5"; ok 25 "6"; ok 46 "0"; ok 0 "";
     ok 65535 ""; ok 6553 "6"; ok 4294967295 ""; ok 429496729 "6"; ok 12511 ""; ok 1251 ""; ok 3953 "";
     ok 18446744073709551615 ",0"; ok 1170343 "number"]. Proof. t. Qed.
(* segment_test.go, graph_test.go *)
Definition sg (i : string) (f t : Z) : segment := mkSeg (lit i) (make_token f t).
Definition nd (i : string) (f t : Z) (k : list node) : node := Node (sg i f t) k.
Example test_sort : sort_segments [sg "obj" 2 18; sg "val" 10 16; sg "id" 3 8; sg "text" 0 20]
  = [sg "text" 0 20; sg "obj" 2 18; sg "id" 3 8; sg "val" 10 16]. Proof. t. Qed.
Example test_sort_order :
  sort_segments_by_order [sg "obj" 2 18; sg "val" 10 16; sg "id" 3 8; sg "text" 0 20; sg "member" 2 18] [lit "member"; lit "obj"]
  = [sg "text" 0 20; sg "member" 2 18; sg "obj" 2 18; sg "id" 3 8; sg "val" 10 16]. Proof. t. Qed.
Example test_segmentate : segmentate (new_scanner (lit "abcdefgh")) [sg "v" 0 1; sg "v" 2 4; sg "v" 7 8]
  = ([sg "v" 0 1; sg "" 1 2; sg "v" 2 4; sg "" 4 7; sg "v" 7 8], None). Proof. t. Qed.
Example test_append :
  [graph_append (new_graph (lit "root")) (sg "val" 10 15);
   graph_append (nd "root" 10 15 [nd "key" 10 15 []]) (sg "val" 17 25);
   graph_append (nd "root" 10 25 [nd "key" 10 15 []; nd "val" 17 25 []]) (sg "obj" 8 28);
   graph_append (nd "root" 10 25 [nd "key" 10 15 []; nd "val" 17 25 []]) (sg "obj" 8 20)]
  = [Some (nd "root" 10 15 [nd "val" 10 15 []], true);
     Some (nd "root" 10 25 [nd "key" 10 15 []; nd "val" 17 25 []], true);
     Some (nd "root" 8 28 [nd "obj" 8 28 [nd "key" 10 15 []; nd "val" 17 25 []]], true);
     Some (nd "root" 10 25 [nd "key" 10 15 []; nd "val" 17 25 []], false)]. Proof. t. Qed.
Example test_leafs : leafs (nd "root" 8 28 [nd "obj" 8 28 [nd "key" 10 15 []; nd "val" 17 25 []]])
  = [sg "key" 10 15; sg "val" 17 25]. Proof. t. Qed.
Example test_build : build_graph (lit "root") [sg "text" 0 20; sg "obj" 2 18; sg "id" 3 8; sg "val" 10 16]
  = Some (nd "root" 0 20 [nd "text" 0 20 [nd "obj" 2 18 [nd "id" 3 8 []; nd "val" 10 16 []]]]). Proof. t. Qed.
(* reader_test.go *)
Definition use_tail (inp : bytes) (r : reader) : option (option err * bytes) :=
  match use (read 1000 [] r) (init_st inp) with
  | Ok (e, s) => Some (e, skipn (Z.to_nat (pos (sc s))) (full (sc s))) | _ => None end.
Definition varinp := lit "var i =  " ++ [x0a] ++ lit " 456;".
Definition rd (r : reader) := AReader r.
Example test_reader1 : use_tail varinp
  (mk_seq [rd (RFold (lit "VAR")); rd ws; rd (RLit (lit "i =")); rd (mk_many (rd ws));
           rd (mk_many (rd (RBetween 0x30 0x39))); rd (RLit (lit ";"))]) = Some (None, []). Proof. t. Qed.
Example test_reader2 : use_tail varinp
  (mk_seq [rd (RLit (lit "var i =")); rd (mk_many (rd ws)); rd (mk_many (rd digit)); rd (RLit (lit ";"))])
  = Some (None, []). Proof. t. Qed.
Definition q (s : bytes) : bytes := x22 :: s ++ [x22].
Example test_what :
  map (what []) [mk_any [rd (RRune 0x21); rd (RLit (lit "abc"))]; RBetween 0x21 0x2603; RBetween 0 MaxRune; RBetween 0x61 0x61;
    between_any (lit "a-zA-Z"); between_any (lit "a-zA-Z_-_"); set_reader (lit "a-zA-Z") (lit "_-+"); RFold (lit "true");
    RHoley 0x61 0x7A (lit "ox"); RNot (RRune 0x41);
    mk_seq [rd (RRune 0x21); rd (mk_many (rd (RAnyRune (lit " +-")))); rd (RLit (lit "abc"))];
    mk_to (rd (RBool 0 [])); RUint 0 16 64; ws; mk_zom (rd ws)]
  = [lit "[ '!' " ++ q (lit "abc") ++ lit " ]"; lit "<!☃>"; lit "<\x00\U0010ffff>"; lit "'a'"; lit "[< az AZ >]";
     lit "[< az AZ __ >]"; lit "[< az AZ " ++ q (lit "_-+") ++ lit " >]"; lit "~" ++ q (lit "true");
     lit "(<az> - " ++ q (lit "ox") ++ lit ")"; lit "!'A'"; lit "'!' +[" ++ q (lit " +-") ++ lit "] " ++ q (lit "abc");
     lit "->bool{" ++ q [] ++ lit "}"; lit "uint{16,64}"; lit "[" ++ q (lit " \r\n\t") ++ lit "]";
     lit "*[" ++ q (lit " \r\n\t") ++ lit "]"]. Proof. t. Qed.
Definition cap (inp : string) (r : reader) : option (bytes * option err) :=
  match capture_use (read 1000 [] r) (init_st (lit inp)) with Ok (x, _) => Some x | _ => None end.
Example test_janus :
  let p := janus 0 (lit "i") (mk_many (rd (RBetween 0x61 0x7A))) in
  cap "two two" (mk_seq [rd (fst p); rd ws; rd (snd p)]) = Some (lit "two two", None). Proof. t. Qed.
Example test_janus2 :
  let p := janus 0 (lit "c") (mk_many (rd (RRune 0x3D))) in
  let b := mk_seq [rd (RRune 0x5B); rd (fst p); rd (RRune 0x5B)] in
  let e := mk_seq [rd (RRune 0x5D); rd (snd p); rd (RRune 0x5D)] in
  cap "[==[long lua string]==] ~=" (mk_seq [rd b; rd (mk_to (rd e))]) = Some (lit "[==[long lua string", None)
  /\ cap "[==[long lua string]==] ~=" (mk_seq [rd b; rd (mk_past (rd e))]) = Some (lit "[==[long lua string]==]", None).
Proof. split; t. Qed.
Example test_not : let n := RNot (RAnyRune (lit "aA")) in
  cap "XYZAa" n = Some (lit "X", None) /\ (exists e, cap "aAbB" n = Some ([], Some e))
  /\ cap "XYZAa" (mk_many (rd n)) = Some (lit "XYZ", None).
Proof. repeat split; try t. eexists. t. Qed.
Example test_invalid : has_invalid_reader (what [] (mk_seq [rd (mk_to (rd (mk_any [ABad (lit "int")])))])) = true
  /\ has_invalid_reader (what [] (mk_seq [rd (mk_to (rd (mk_any [AStr (lit "s")])))])) = false. Proof. split; t. Qed.
(* grammar_test.go *)
Example test_setrulenames :
  match set_rule_names [rule_field "Rule1" "first"; mkField (lit "Ignore") false true [] rule0;
                        rule_field "Rule2" "num2"; rule_field "Rule3" ""] with
  | Ok (g, e) => Some (map (fun f => r_name (f_rule f)) g, e) | _ => None end
  = Some ([lit "first"; []; lit "num2"; []], None). Proof. t. Qed.
(* grammar/json_test.go *)
Definition run (e : env) (r : reader) (inp : bytes) : option (option err * Z) :=
  match use (read 2000 e r) (init_st inp) with Ok (x, s) => Some (x, pos (sc s)) | _ => None end.
Definition jrun (inp : bytes) := match run json_env json inp with Some (None, p) => p =? slen inp | _ => false end.
Definition kv (k v : bytes) := q k ++ lit ":" ++ v.
Example test_json1 : jrun (lit "{}") = true. Proof. t. Qed.
Example test_json2 : jrun (lit "{" ++ kv (lit "key") (q (lit "value")) ++ lit "}") = true. Proof. t. Qed.
Example test_json3 : jrun (lit "{" ++ kv (lit "menu") (lit " { " ++ kv (lit "id") (lit "[ {" ++ kv (lit "a") (q (lit "New")) ++ lit "},"
   ++ [x0a; x09] ++ lit "-12.5e+3 , 0, null, true ]") ++ lit "}") ++ lit "}") = true. Proof. t. Qed.
(* grammar/lua_test.go *)
Definition lrun (i : nat) (inp : bytes) := match run lua_env (RRule i) inp with Some (None, p) => p =? slen inp | _ => false end.
Example test_lua1 : forallb (lrun lLiteralString) [q []; q (lit "a\tbc\n"); lit "'a\tbc\n'"; lit "[[abc]]"] = true. Proof. t. Qed.
Example test_lua2 : lrun lFuncCall (lit "assert( dir and dir ~= " ++ q [] ++ lit ", "
   ++ q (lit "directory parameter is missing or empty") ++ lit " )") = true. Proof. t. Qed.
Example test_lua3 : lrun lIfElse (lit "if not isdodd( base ) then base = doSomething( base ) end") = true. Proof. t. Qed.
Example test_lua4 : lrun lRetStat (lit "return coroutine.wrap( function() yieldtree( dir ) end )") = true. Proof. t. Qed.
Example test_lua5 : run lua_env lua [] = Some (None, 0). Proof. t. Qed.
(* grammar/mxt_test.go *)
Definition nls (l : list string) : bytes := join (map lit l) [x0a].
Definition map_rule (i id : nat) (e : env) : env :=
  firstn i e ++ rule_map e id (get_rule e i) :: skipn (S i) e.
Definition mevents (inp : bytes) : option (option err * Z * list (nat * bytes)) :=
  let e := map_rule mName 0 (map_rule mEmptyContent 1 (map_rule mContent 2 mxt_env)) in
  match use (read 3000 e mxt) (init_st inp) with
  | Ok (x, s) => Some (x, pos (sc s), map (fun it => (fst it, slice inp (t_from (snd it)) (t_to (snd it)))) (h_events (hp s)))
  | _ => None end.
Example test_mxt1 : mevents (lit "// name.of.chunk -->") = Some (None, 20, [(0%nat, lit "name.of.chunk"); (1%nat, [])]). Proof. t. Qed.
Definition mxt_doc := nls
  ["//---------------------------------------------------------------- user.json -->"; "{"; "}";
   "//--------------------------------------------------------------- connection.ini";
   "// comment line that is not part of the ini file,"; "//";
   "//----------------------------------------------------------------------------->";
   "request: GET"; ""; "[url]";
   "// user.pgp --> XYZ"; "-----BEGIN PGP MESSAGE-----"; "uuTd"; "//x y -->"; "-----END PGP MESSAGE-----";
   "//XYZ hello-world.h -->";
   "//---------------------------------------------------------- hello-world.c --> X";
   "// this is part of hello-world.c"; "return 0;"; "}"]%string.
Example test_mxt2 : mevents mxt_doc = Some (None, slen mxt_doc,
  [(0%nat, lit "user.json"); (2%nat, nls ["{"; "}"]%string);
   (0%nat, lit "connection.ini"); (2%nat, nls ["request: GET"; ""; "[url]"]%string);
   (0%nat, lit "user.pgp"); (2%nat, nls ["-----BEGIN PGP MESSAGE-----"; "uuTd"; "//x y -->"; "-----END PGP MESSAGE-----"]%string);
   (0%nat, lit "hello-world.h"); (1%nat, []);
   (0%nat, lit "hello-world.c"); (2%nat, nls ["// this is part of hello-world.c"; "return 0;"; "}"]%string)]). Proof. t. Qed.
