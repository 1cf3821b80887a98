(** SpecLuaOpen.v - texts that break off inside a quoted string. *)
From Verif Require Export SpecLua SpecLuaLex.

Definition is_quote (q : byte) : Prop := q = x22 \/ q = x27.
(** [passes b b']: [b] is cut from the left into single bytes that are no quotes, quoted strings, long brackets (as
    grammar/lua.go closes them) and line comments; [b'] is what is left behind some of these pieces. *)
Inductive passes : bytes -> bytes -> Prop :=
| p_here b : passes b b
| p_byte x b b' : ~ is_quote x -> passes b b' -> passes (x :: b) b'
| p_string q u b b' : is_quote q -> l_chars q u -> passes b b' -> passes (q :: u ++ q :: b) b'
| p_long k b r b' : long_ends k b r -> passes r b' -> passes (opening k ++ b) b'
| p_line v b b' : ~ In x0a v -> passes (x0a :: b) b' -> passes (lit "--" ++ v ++ x0a :: b) b'.
(** A quote and string characters up to the end of the text. *)
Definition open_string (b : bytes) : Prop := exists q u, b = q :: u /\ is_quote q /\ l_chars q u.
Definition breaks_off (b : bytes) : Prop := exists b', passes b b' /\ open_string b'.
(** Bytes that are no quotes, and whole strings. *)
Inductive closed : bytes -> Prop :=
| c_nil : closed []
| c_byte x b : ~ is_quote x -> closed b -> closed (x :: b)
| c_string q u b : is_quote q -> l_chars q u -> closed b -> closed (q :: u ++ q :: b).
