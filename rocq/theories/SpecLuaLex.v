(** SpecLuaLex.v - names, numerals and quoted strings of grammar/lua.go, as sets of byte strings; nothing here
    refers to the readers. *)
From Verif Require Export SpecLua.

(** The longest prefix of [b] in [P] is [w]; [rest] is what is left. *)
Definition longest (P : bytes -> Prop) (b w rest : bytes) : Prop :=
  b = w ++ rest /\ P w /\ forall w' rest', b = w' ++ rest' -> P w' -> (length w' <= length w)%nat.

Definition l_digit (x : byte) : Prop := 0x30 <= bz x <= 0x39.
Definition l_hex (x : byte) : Prop := l_digit x \/ 0x41 <= bz x <= 0x46 \/ 0x61 <= bz x <= 0x66.
Definition l_letter (x : byte) : Prop := 0x41 <= bz x <= 0x5A \/ 0x61 <= bz x <= 0x7A \/ x = x5f.

(** Names (Lua 5.4 manual, section 3.1, keywords not excluded) *)
Definition l_name (w : bytes) : Prop := exists x t, w = x :: t /\ l_letter x /\ Forall (fun y => l_letter y \/ l_digit y) t.

(** Numerals *)
Definition some (P : byte -> Prop) (w : bytes) : Prop := w <> [] /\ Forall P w.
Definition l_sign (w : bytes) : Prop := w = [] \/ w = lit "+" \/ w = lit "-".
Definition l_frac (P : byte -> Prop) (w : bytes) : Prop := w = [] \/ exists d, w = x2e :: d /\ some P d.
Definition l_exp (marks : bytes) (w : bytes) : Prop := w = [] \/ exists x s d, w = x :: s ++ d /\ In x marks /\ l_sign s /\ some l_digit d.
Definition l_decimal (w : bytes) : Prop := exists i f x, w = i ++ f ++ x /\ some l_digit i /\ l_frac l_digit f /\ l_exp (lit "eE") x.
Definition l_hexadecimal (w : bytes) : Prop := exists m i f x, w = x30 :: m :: i ++ f ++ x /\ In m (lit "xX") /\ some l_hex i /\ l_frac l_hex f /\ l_exp (lit "pP") x.
Definition l_numeral (w : bytes) : Prop := l_decimal w \/ l_hexadecimal w.
(** Lua 5.4 itself also allows a fraction without digits behind or before the dot. *)
Definition lua_frac_form (P : byte -> Prop) (w : bytes) : Prop :=
  some P w \/ (exists i f, w = i ++ x2e :: f /\ Forall P i /\ Forall P f /\ (i <> [] \/ f <> [])).
Definition lua54_numeral (w : bytes) : Prop :=
  (exists m x, w = m ++ x /\ lua_frac_form l_digit m /\ l_exp (lit "eE") x) \/
  (exists y m x, w = x30 :: y :: m ++ x /\ In y (lit "xX") /\ lua_frac_form l_hex m /\ l_exp (lit "pP") x).

(** Contents of a string in quotes [q]; bytes that are not UTF-8 are not excluded. *)
Definition l_plain (q x : byte) : Prop := 0x20 <= bz x /\ x <> q /\ x <> x5c.
Inductive l_escape : bytes -> Prop :=
| le_char x : In x (lit "abfnrtvz" ++ [x22; x27; x5c]) -> l_escape [x5c; x]
| le_digit x : l_digit x -> l_escape [x5c; x]
| le_hex h1 h2 : l_hex h1 -> l_hex h2 -> l_escape [x5c; x78; h1; h2]
| le_utf8 d : some l_hex d -> l_escape (x5c :: x75 :: x7b :: d ++ [x7d]).
Inductive l_chars (q : byte) : bytes -> Prop :=
| lc_nil : l_chars q []
| lc_plain x w : l_plain q x -> l_chars q w -> l_chars q (x :: w)
| lc_escape u w : l_escape u -> l_chars q w -> l_chars q (u ++ w).
