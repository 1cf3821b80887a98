(** SpecLua.v - what Lua 5.4 says of binary operators and long brackets, on bytes. *)
From Verif Require Export Base.

(** Lua 5.4 manual, section 9: binop. *)
Definition lua_binops : list bytes := map lit
  ["+"; "-"; "*"; "/"; "//"; "^"; "%"; "&"; "~"; "|"; ">>"; "<<"; ".."; "<"; "<="; ">"; ">="; "=="; "~="; "and"; "or"]%string.
(** [op] is the longest operator [b] begins with. *)
Definition begins (b x : bytes) : Prop := exists t, b = x ++ t.
Definition longest_op (b op : bytes) : Prop :=
  In op lua_binops /\ begins b op /\ forall op', In op' lua_binops -> begins b op' -> (length op' <= length op)%nat.

(** [k] equal signs; the brackets of level [k]. *)
Definition eqs (k : nat) : bytes := repeat x3d k.
Definition opening (k : nat) : bytes := x5b :: eqs k ++ [x5b].
Definition closing (k : nat) : bytes := x5d :: eqs k ++ [x5d].
(** A closing bracket without its last byte. *)
Definition near (k : nat) : bytes := x5d :: eqs k.
(** [x] occurs in [v ++ x ++ t] at [length v] and nowhere before. *)
Definition first_at (b v x : bytes) : Prop := begins b (v ++ x) /\ forall v' t, b = v' ++ x ++ t -> (length v <= length v')%nat.
Definition occurs (b x : bytes) : Prop := exists v t, b = v ++ x ++ t.

(** How grammar/lua.go finds the end of a long bracket of level [k] in [b], the text behind its opening; [rest] is
    what it leaves.  The first closing bracket counts, unless a bracket and [k] equal signs came before it: then
    the level is forgotten, and the first closing bracket of level 0 behind that place counts. *)
Inductive long_ends (k : nat) (b : bytes) : bytes -> Prop :=
| le_close v rest : b = v ++ closing k ++ rest -> first_at b v (closing k) -> (k = 0%nat \/ first_at b v (near k)) -> long_ends k b rest
| le_lost v w v2 rest : (0 < k)%nat -> b = v ++ near k ++ w -> first_at b v (near k) -> ~ begins w [x5d] ->
    eqs k ++ w = v2 ++ closing 0 ++ rest -> first_at (eqs k ++ w) v2 (closing 0) -> long_ends k b rest.
