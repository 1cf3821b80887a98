(** SpecLuaStyle.v - a style of writing Lua programs: all statements and expressions of the manual, with rules on where
    white space and commas stand; nothing here refers to the readers. *)
From Verif Require Export SpecLuaSyntax.

(** White space, and white space that is there *)
Definition blank (g : bytes) : Prop := Forall (fun x => In x [x20; x0d; x0a; x09]) g.
Definition space (g : bytes) : Prop := blank g /\ g <> [].
(** A name, and a name that does not begin with a keyword either *)
Definition ident (w : bytes) : Prop := l_name w /\ ~ In w lua_keywords.
Definition tidy (w : bytes) : Prop := l_name w /\ forall k t, In k lua_keywords -> w <> k ++ t.
(** Operators; not the ones of the first byte of which is another operator's: C66 *)
Definition style_binops : list bytes := map lit
  [".."; "<="; "<"; ">="; ">"; "=="; "~="; "and"; "or"; "+"; "-"; "*"; "/"; "^"; "%"; "&"; "~"; "|"]%string.
(** The expression could be taken for the arguments of a call. *)
Definition like_args (t : bytes) : Prop := exists x u, t = x :: u /\ In x [x28; x7b; x22; x27].

(** The sorts of text:
    [Operand b], [Expr b], [Exprs b]: with [b] a comma may follow (the text does not end with a function);
    [Suffixes l]: the suffixes of a name, the last one is a call, an index, or there is none;
    [Field k b]: a field of a table with a key or without one; [Fields k]: the first is such;
    [Stats l f], [Stat l e]: with [l] there may be white space before the (first) statement, with [e] behind it even
    if the next one does not allow it; [f]: what ends the text is no part of a word. *)
Inductive sort :=
| Operand (b : bool) | Expr (b : bool) | Exprs (b : bool) | Suffixes (l : option bool) | Call | Args | Index
| Table | Fields (k : bool) | Field (k b : bool) | Names | Params | Body | FuncName | AttNames | Attr
| OneVar | Vars | Stat (l e : bool) | Stats (l f : bool) | Return (f : bool) | Block (f : bool) | Else.

Definition last_is (l : option bool) (b : bool) : option bool := match l with None => Some b | _ => l end.
Definition str (x : string) : bytes := lit x.
Arguments str x%string.

Inductive style : sort -> bytes -> Prop :=
(* operands *)
| s_const w : In w (map lit ["nil"; "false"; "true"; "..."]%string) -> style (Operand true) w
| s_number w : l_numeral w -> style (Operand true) w
| s_string q u : In q [x22; x27] -> l_chars q u -> style (Operand true) (q :: u ++ [q])
| s_table t : style Table t -> style (Operand true) t
| s_name w l t : tidy w -> style (Suffixes l) t -> style (Operand true) (w ++ t)
| s_paren b g1 x g2 l t : blank g1 -> style (Expr b) x -> blank g2 -> style (Suffixes l) t ->
    style (Operand true) (str "(" ++ g1 ++ x ++ g2 ++ str ")" ++ t)
| s_function g t : blank g -> style Body t -> style (Operand false) (str "function" ++ g ++ t)
(* suffixes *)
| s_end : style (Suffixes None) []
| s_call l g x t : blank g -> style Call x -> style (Suffixes l) t -> style (Suffixes (last_is l true)) (g ++ x ++ t)
| s_index l g x t : blank g -> style Index x -> style (Suffixes l) t -> style (Suffixes (last_is l false)) (g ++ x ++ t)
| s_plain x : style Args x -> style Call x
| s_method w g x : ident w -> blank g -> style Args x -> style Call (str ":" ++ w ++ g ++ x)
| s_no_args g : blank g -> style Args (str "(" ++ g ++ str ")")
| s_args b g1 x g2 : blank g1 -> style (Exprs b) x -> blank g2 -> style Args (str "(" ++ g1 ++ x ++ g2 ++ str ")")
| s_table_arg t : style Table t -> style Args t
| s_string_arg q u : In q [x22; x27] -> l_chars q u -> style Args (q :: u ++ [q])
| s_key b g1 x g2 : blank g1 -> style (Expr b) x -> blank g2 -> style Index (str "[" ++ g1 ++ x ++ g2 ++ str "]")
| s_dot w : ident w -> style Index (str "." ++ w)
(* expressions *)
| s_operand b t : style (Operand b) t -> style (Expr b) t
| s_unary b u g x : In u (map lit ["-"; "#"; "~"]%string) -> blank g -> style (Expr b) x -> (u = str "-" -> g = [] -> forall t, x <> str "-" ++ t) ->
    style (Expr b) (u ++ g ++ x)
| s_not b g x : space g -> style (Expr b) x -> style (Expr b) (str "not" ++ g ++ x)
| s_binary b t g1 o g2 x : style (Operand true) t -> space g1 -> In o style_binops -> space g2 -> style (Expr b) x ->
    style (Expr b) (t ++ g1 ++ o ++ g2 ++ x)
| s_one b x : style (Expr b) x -> style (Exprs b) x
| s_more b x g1 g2 l : style (Expr true) x -> blank g1 -> blank g2 -> style (Exprs b) l -> style (Exprs b) (x ++ g1 ++ str "," ++ g2 ++ l)
(* tables *)
| s_empty g : blank g -> style Table (str "{" ++ g ++ str "}")
| s_fields k g1 f g2 : blank g1 -> style (Fields k) f -> blank g2 -> style Table (str "{" ++ g1 ++ f ++ g2 ++ str "}")
| s_field k b f : style (Field k b) f -> style (Fields k) f
| s_field_sep k b f p : style (Field k b) f -> p = str ";" \/ (b = true /\ p = str ",") -> style (Fields k) (f ++ p)
| s_field_more k b f p g k2 l : style (Field k b) f -> p = str ";" \/ (b = true /\ p = str ",") -> blank g -> g = [] \/ k2 = true -> style (Fields k2) l ->
    style (Fields k) (f ++ p ++ g ++ l)
| s_value b x : style (Expr b) x -> style (Field false b) x
| s_named b w g1 g2 x : ident w -> blank g1 -> blank g2 -> style (Expr b) x -> style (Field true b) (w ++ g1 ++ str "=" ++ g2 ++ x)
| s_keyed b b2 g1 x g2 g3 g4 y : blank g1 -> style (Expr b2) x -> blank g2 -> blank g3 -> blank g4 -> style (Expr b) y ->
    style (Field true b) (str "[" ++ g1 ++ x ++ g2 ++ str "]" ++ g3 ++ str "=" ++ g4 ++ y)
(* functions *)
| s_name_one w : ident w -> style Names w
| s_name_more w l : ident w -> style Names l -> style Names (w ++ str "," ++ l)
| s_params_none : style Params []
| s_params l : style Names l -> style Params l
| s_params_dots l g1 g2 : style Names l -> blank g1 -> blank g2 -> style Params (l ++ g1 ++ str "," ++ g2 ++ str "...")
| s_dots : style Params (str "...")
| s_body g1 p g2 t : blank g1 -> style Params p -> blank g2 -> style (Block true) t -> style Body (str "(" ++ g1 ++ p ++ g2 ++ str ")" ++ t ++ str "end")
| s_fname w : ident w -> style FuncName w
| s_fname_method w v : ident w -> ident v -> style FuncName (w ++ str ":" ++ v)
| s_fname_dot w l : ident w -> style FuncName l -> style FuncName (w ++ str "." ++ l)
(* statements *)
| s_semicolon : style (Stat false false) (str ";")
| s_var w l t : tidy w -> style (Suffixes l) t -> l <> Some true -> style OneVar (w ++ t)
| s_var_one v : style OneVar v -> style Vars v
| s_var_more v g1 g2 l : style OneVar v -> blank g1 -> blank g2 -> style Vars l -> style Vars (v ++ g1 ++ str "," ++ g2 ++ l)
| s_assign b v g1 g2 l : style Vars v -> blank g1 -> blank g2 -> style (Exprs b) l -> style (Stat true true) (v ++ g1 ++ str "=" ++ g2 ++ l)
| s_call_stat w t : tidy w -> style (Suffixes (Some true)) t -> style (Stat false true) (w ++ t)
| s_label w : ident w -> style (Stat false false) (str "::" ++ w ++ str "::")
| s_break : style (Stat false false) (str "break")
| s_goto g w : space g -> ident w -> style (Stat true true) (str "goto" ++ g ++ w)
| s_do g t : space g -> style (Block true) t -> style (Stat true true) (str "do" ++ g ++ t ++ str "end")
| s_while b g1 x g2 g3 t : space g1 -> style (Expr b) x -> space g2 -> space g3 -> style (Block true) t ->
    style (Stat true true) (str "while" ++ g1 ++ x ++ g2 ++ str "do" ++ g3 ++ t ++ str "end")
| s_repeat b g1 t g2 x : space g1 -> style (Block true) t -> space g2 -> style (Expr b) x -> ~ like_args x ->
    style (Stat true true) (str "repeat" ++ g1 ++ t ++ str "until" ++ g2 ++ x)
| s_if b g1 x g2 g3 t l : space g1 -> style (Expr b) x -> space g2 -> space g3 -> style (Block true) t -> style Else l ->
    style (Stat true true) (str "if" ++ g1 ++ x ++ g2 ++ str "then" ++ g3 ++ t ++ l)
| s_endif : style Else (str "end")
| s_else g t : space g -> style (Block true) t -> style Else (str "else" ++ g ++ t ++ str "end")
| s_elseif b g1 x g2 g3 t l : space g1 -> style (Expr b) x -> ~ like_args x -> space g2 -> space g3 -> style (Block true) t -> style Else l ->
    style Else (str "elseif" ++ g1 ++ x ++ g2 ++ str "then" ++ g3 ++ t ++ l)
| s_for b g1 w g2 g3 x g4 g5 y g6 g7 t : space g1 -> ident w -> blank g2 -> blank g3 -> style (Expr true) x -> blank g4 -> blank g5 -> style (Expr b) y ->
    space g6 -> space g7 -> style (Block true) t ->
    style (Stat true true) (str "for" ++ g1 ++ w ++ g2 ++ str "=" ++ g3 ++ x ++ g4 ++ str "," ++ g5 ++ y ++ g6 ++ str "do" ++ g7 ++ t ++ str "end")
| s_for_step b g1 w g2 g3 x g4 g5 y g8 g9 z g6 g7 t : space g1 -> ident w -> blank g2 -> blank g3 -> style (Expr true) x -> blank g4 -> blank g5 -> style (Expr true) y ->
    blank g8 -> blank g9 -> style (Expr b) z -> space g6 -> space g7 -> style (Block true) t ->
    style (Stat true true) (str "for" ++ g1 ++ w ++ g2 ++ str "=" ++ g3 ++ x ++ g4 ++ str "," ++ g5 ++ y ++ g8 ++ str "," ++ g9 ++ z ++ g6 ++ str "do" ++ g7 ++ t ++ str "end")
| s_for_in b g1 l g2 g3 x g4 g5 t : space g1 -> style Names l -> space g2 -> space g3 -> style (Exprs b) x -> space g4 -> space g5 -> style (Block true) t ->
    style (Stat true true) (str "for" ++ g1 ++ l ++ g2 ++ str "in" ++ g3 ++ x ++ g4 ++ str "do" ++ g5 ++ t ++ str "end")
| s_fun_stat g1 n g2 t : space g1 -> style FuncName n -> blank g2 -> style Body t -> style (Stat true true) (str "function" ++ g1 ++ n ++ g2 ++ t)
| s_local_fun g1 g2 w g3 t : space g1 -> space g2 -> ident w -> blank g3 -> style Body t ->
    style (Stat true true) (str "local" ++ g1 ++ str "function" ++ g2 ++ w ++ g3 ++ t)
| s_no_attr : style Attr []
| s_attr g w : blank g -> ident w -> style Attr (g ++ str "<" ++ w ++ str ">")
| s_att_one w a : tidy w -> style Attr a -> style AttNames (w ++ a)
| s_att_more w a g1 g2 l : tidy w -> style Attr a -> blank g1 -> blank g2 -> style AttNames l -> style AttNames (w ++ a ++ g1 ++ str "," ++ g2 ++ l)
| s_local g l : space g -> style AttNames l -> style (Stat true true) (str "local" ++ g ++ l)
| s_local_is b g l g1 g2 x : space g -> style AttNames l -> blank g1 -> blank g2 -> style (Exprs b) x ->
    style (Stat true true) (str "local" ++ g ++ l ++ g1 ++ str "=" ++ g2 ++ x)
(* blocks *)
| s_stop f : style (Stats true f) []
| s_stat l e s g l2 f t : style (Stat l e) s -> blank g -> style (Stats l2 f) t -> g = [] \/ e = true \/ l2 = true ->
    g <> [] \/ s = str ";" \/ (exists u, t = str ";" ++ u) \/ (t = [] /\ f = false) -> style (Stats l f) (s ++ g ++ t)
| s_return_bare g : blank g -> style (Return false) (str "return" ++ g)
| s_return_none f g g2 : blank g -> blank g2 -> style (Return f) (str "return" ++ g ++ str ";" ++ g2)
| s_return f b g1 x g2 : space g1 -> style (Exprs b) x -> ~ like_args x -> blank g2 -> (f = true -> g2 <> []) -> style (Return f) (str "return" ++ g1 ++ x ++ g2)
| s_return_semi f b g1 x g2 g3 : space g1 -> style (Exprs b) x -> ~ like_args x -> blank g2 -> blank g3 ->
    style (Return f) (str "return" ++ g1 ++ x ++ g2 ++ str ";" ++ g3)
| s_block f g l t : blank g -> style (Stats l f) t -> style (Block f) (g ++ t)
| s_block_return f g l t r : blank g -> style (Stats l true) t -> style (Return f) r -> style (Block f) (g ++ t ++ r).
(** A program in this style *)
Definition lua_style (t : bytes) : Prop := style (Block false) t.
