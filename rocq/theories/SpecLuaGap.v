(** SpecLuaGap.v - white space and comments before a text. *)
From Verif Require Export SpecLuaStyle SpecLua.

(** [spaced b r]: [b] is white space and comments, and then [r].  A line comment does not begin like a long one that
    ends; a long one ends where grammar/lua.go ends it. *)
Inductive spaced : bytes -> bytes -> Prop :=
| g_none r : spaced r r
| g_white x b r : In x [x20; x0d; x0a; x09] -> spaced b r -> spaced (x :: b) r
| g_line v b r : ~ In x0a v -> (forall k u q, v ++ x0a :: b = opening k ++ u -> ~ long_ends k u q) -> spaced b r -> spaced (lit "--" ++ v ++ x0a :: b) r
| g_long k b q r : long_ends k b q -> spaced q r -> spaced (lit "--" ++ opening k ++ b) r.
(** Neither white space nor a comment is next. *)
Definition no_gap (r : bytes) : Prop := (forall x u, r = x :: u -> ~ In x [x20; x0d; x0a; x09]) /\ forall u, r <> lit "--" ++ u.
