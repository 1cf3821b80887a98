(** SpecLuaSyntax.v - the grammar of section 9 of the Lua 5.4 manual over tokens, and how tokens are written; nothing
    here refers to the readers. *)
From Verif Require Export SpecLuaLex.

(** Tokens: a name, a numeral, a literal string, or a keyword or sign. *)
Inductive lua_token := Ident | Number | Text | Sign (x : bytes).

Inductive nonterm :=
| chunk | block | stat | attnamelist | attrib | retstat | label | funcname | varlist | var | namelist | explist | exp
| prefixexp | functioncall | args | functiondef | funcbody | parlist | tableconstructor | fieldlist | field | fieldsep
| binop | unop.

(** Extended BNF: {A} is [Star A], [A] is [Maybe A]. *)
Inductive ebnf := T (t : lua_token) | N (n : nonterm) | Cat (l : list ebnf) | Alt (l : list ebnf) | Star (x : ebnf) | Maybe (x : ebnf).
Definition K (x : string) : ebnf := T (Sign (lit x)).
Arguments K x%string.
Notation Name := (T Ident).
Notation Numeral := (T Number).
Notation LiteralString := (T Text).

(** Lua 5.4 manual, section 9 *)
Definition manual (n : nonterm) : ebnf :=
  match n with
  | chunk => N block
  | block => Cat [Star (N stat); Maybe (N retstat)]
  | stat => Alt [
      K ";";
      Cat [N varlist; K "="; N explist];
      N functioncall;
      N label;
      K "break";
      Cat [K "goto"; Name];
      Cat [K "do"; N block; K "end"];
      Cat [K "while"; N exp; K "do"; N block; K "end"];
      Cat [K "repeat"; N block; K "until"; N exp];
      Cat [K "if"; N exp; K "then"; N block; Star (Cat [K "elseif"; N exp; K "then"; N block]); Maybe (Cat [K "else"; N block]); K "end"];
      Cat [K "for"; Name; K "="; N exp; K ","; N exp; Maybe (Cat [K ","; N exp]); K "do"; N block; K "end"];
      Cat [K "for"; N namelist; K "in"; N explist; K "do"; N block; K "end"];
      Cat [K "function"; N funcname; N funcbody];
      Cat [K "local"; K "function"; Name; N funcbody];
      Cat [K "local"; N attnamelist; Maybe (Cat [K "="; N explist])]]
  | attnamelist => Cat [Name; N attrib; Star (Cat [K ","; Name; N attrib])]
  | attrib => Maybe (Cat [K "<"; Name; K ">"])
  | retstat => Cat [K "return"; Maybe (N explist); Maybe (K ";")]
  | label => Cat [K "::"; Name; K "::"]
  | funcname => Cat [Name; Star (Cat [K "."; Name]); Maybe (Cat [K ":"; Name])]
  | varlist => Cat [N var; Star (Cat [K ","; N var])]
  | var => Alt [Name; Cat [N prefixexp; K "["; N exp; K "]"]; Cat [N prefixexp; K "."; Name]]
  | namelist => Cat [Name; Star (Cat [K ","; Name])]
  | explist => Cat [N exp; Star (Cat [K ","; N exp])]
  | exp => Alt [K "nil"; K "false"; K "true"; Numeral; LiteralString; K "..."; N functiondef; N prefixexp; N tableconstructor;
      Cat [N exp; N binop; N exp]; Cat [N unop; N exp]]
  | prefixexp => Alt [N var; N functioncall; Cat [K "("; N exp; K ")"]]
  | functioncall => Alt [Cat [N prefixexp; N args]; Cat [N prefixexp; K ":"; Name; N args]]
  | args => Alt [Cat [K "("; Maybe (N explist); K ")"]; N tableconstructor; LiteralString]
  | functiondef => Cat [K "function"; N funcbody]
  | funcbody => Cat [K "("; Maybe (N parlist); K ")"; N block; K "end"]
  | parlist => Alt [Cat [N namelist; Maybe (Cat [K ","; K "..."])]; K "..."]
  | tableconstructor => Cat [K "{"; Maybe (N fieldlist); K "}"]
  | fieldlist => Cat [N field; Star (Cat [N fieldsep; N field]); Maybe (N fieldsep)]
  | field => Alt [Cat [K "["; N exp; K "]"; K "="; N exp]; Cat [Name; K "="; N exp]; N exp]
  | fieldsep => Alt [K ","; K ";"]
  | binop => Alt (map (fun x => T (Sign x)) lua_binops)
  | unop => Alt [K "-"; K "not"; K "#"; K "~"]
  end.

Inductive derives : ebnf -> list lua_token -> Prop :=
| d_tok t : derives (T t) [t]
| d_rule n ts : derives (manual n) ts -> derives (N n) ts
| d_cat_nil : derives (Cat []) []
| d_cat x l u v : derives x u -> derives (Cat l) v -> derives (Cat (x :: l)) (u ++ v)
| d_alt x l u : In x l -> derives x u -> derives (Alt l) u
| d_star_nil x : derives (Star x) []
| d_star x u v : derives x u -> derives (Star x) v -> derives (Star x) (u ++ v)
| d_none x : derives (Maybe x) []
| d_some x u : derives x u -> derives (Maybe x) u.

(** Literal strings; how a long bracket ends is in SpecLua.v. *)
Definition long_text (w : bytes) : Prop := exists k u, w = opening k ++ u /\ long_ends k u [].
Definition lua_literal (w : bytes) : Prop := (exists q u, (q = x22 \/ q = x27) /\ w = q :: u ++ [q] /\ l_chars q u) \/ long_text w.
(** Comments, without the end of the line *)
Definition lua_remark (w : bytes) : Prop := exists v, w = lit "--" ++ v /\ (~ In x0a v \/ long_text v).
(** Between tokens: white space, and comments that are long or end with their line *)
Inductive gap : bytes -> Prop :=
| gap_nil : gap []
| gap_space x w : In x [x20; x0d; x0a; x09] -> gap w -> gap (x :: w)
| gap_line v w : ~ In x0a v -> gap w -> gap (lit "--" ++ v ++ x0a :: w)
| gap_long u w : long_text u -> gap w -> gap (lit "--" ++ u ++ w).
Definition writes (t : lua_token) (w : bytes) : Prop :=
  match t with Ident => l_name w | Number => l_numeral w | Text => lua_literal w | Sign x => w = x end.
(** [w] are the tokens [ts], one after the other, with gaps before, between and behind them. *)
Inductive spells : list lua_token -> bytes -> Prop :=
| sp_nil g : gap g -> spells [] g
| sp_tok g t ts u w : gap g -> writes t u -> spells ts w -> spells (t :: ts) (g ++ u ++ w).

(** The text [w] is one of the phrase [x]. *)
Definition phrase (x : ebnf) (w : bytes) : Prop := exists ts, spells ts w /\ derives x ts.
(** #! and the rest of the line *)
Definition she_bang (w : bytes) : Prop := exists v, w = lit "#!" ++ v /\ ~ In x0d v /\ ~ In x0a v.

(** What may follow a name or an expression in parentheses *)
Definition call_x : ebnf := Cat [Maybe (Cat [K ":"; Name]); N args].
Definition index_x : ebnf := Alt [Cat [K "["; N exp; K "]"]; Cat [K "."; Name]].
Definition suffix_x : ebnf := Cat [Star call_x; index_x].
Definition paren_x : ebnf := Cat [K "("; N exp; K ")"].
Definition base_x : ebnf := Alt [N var; paren_x].
(** The phrases of the rules of the Lua grammar, in the order of its fields (grammar/lua.go:52-102); SheBang, Comment
    and Script are none. *)
Definition lua_names : list (option ebnf) :=
  [None; Some Name; Some Numeral; Some LiteralString; None; Some (N unop); Some (N binop); Some (N fieldsep); Some (N field); Some (N fieldlist);
   Some (N tableconstructor); Some (N parlist); Some (N funcbody); Some (N functiondef); Some (N args); Some (N functioncall); Some (N prefixexp); Some (N exp); Some (N exp);
   Some (N explist); Some (N namelist); Some suffix_x; Some (N var); Some (N varlist); Some (N funcname); Some (N label); Some (N retstat); Some (N attrib); Some (N attnamelist);
   Some (N stat); Some (N stat); Some (N stat); Some (N stat); Some (N stat); Some (N stat); Some (N stat); Some (N stat); Some (N stat); Some (N stat); Some (N stat); Some (N stat);
   Some (N block); Some (N chunk); None].
Definition lua_name (i : nat) : option ebnf := nth i lua_names None.
(** A script: a first line with #! or none, and a block. *)
Definition script (w : bytes) : Prop := exists u v, w = u ++ v /\ (u = [] \/ she_bang u) /\ phrase (N block) v.
(** The texts of the rule at position [i]. *)
Definition lua_text (i : nat) (w : bytes) : Prop :=
  if Nat.eqb i 0 then she_bang w else if Nat.eqb i 4 then lua_remark w else if Nat.eqb i 43 then script w else
  match lua_name i with Some x => phrase x w | None => True end.

(** Section 3.1 of the manual: a name is no keyword, and names, keywords and numerals are as long as can be. *)
Definition lua_keywords : list bytes := map lit
  ["and"; "break"; "do"; "else"; "elseif"; "end"; "false"; "for"; "function"; "goto"; "if"; "in"; "local"; "nil"; "not"; "or"; "repeat"; "return"; "then"; "true"; "until"; "while"]%string.
Definition wordy (x : byte) : Prop := l_letter x \/ l_digit x.
Definition apart (u w : bytes) : Prop := forall v x y t, u = v ++ [x] -> w = y :: t -> wordy x -> wordy y -> False.
Inductive strictly : list lua_token -> bytes -> Prop :=
| xs_nil g : gap g -> strictly [] g
| xs_tok g t ts u w : gap g -> u <> [] -> writes t u -> (t = Ident -> ~ In u lua_keywords) -> apart u w -> strictly ts w -> strictly (t :: ts) (g ++ u ++ w).
Definition strict_phrase (x : ebnf) (w : bytes) : Prop := exists ts, strictly ts w /\ derives x ts.
