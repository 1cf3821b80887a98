(** SpecTree.v - the tree of a JSON text, as the demo json-stack shows it. *)
From Verif Require Export SpecJson SpecSeg.
From Verif Require Import Graph.

(** Children first. *)
Fixpoint post (n : node) : list segment := match n with Node s k => flat_map post k ++ [s] end.

(** [json_nodes on s p w k]: [w] is a text of sort [s] that starts at position [p]; [k] are its objects, arrays, keys,
    strings, numbers, booleans and nulls as a forest, where only those parts are shown whose name is [on]. *)
Section Nodes.
Context (on : bytes -> bool).
Definition shown (name : bytes) (p : Z) (w : bytes) (k : list node) : list node :=
  if on name then [Node (mkSeg name (mkTok p (p + slen w))) k] else k.
Inductive json_nodes : jsort -> Z -> bytes -> list node -> Prop :=
| jn_object0 p w : j_ws w -> json_nodes Value p (lit "{" ++ w ++ lit "}") (shown (lit "object") p (lit "{" ++ w ++ lit "}") [])
| jn_object p m k : json_nodes Members (p + 1) m k -> json_nodes Value p (lit "{" ++ m ++ lit "}") (shown (lit "object") p (lit "{" ++ m ++ lit "}") k)
| jn_array0 p w : j_ws w -> json_nodes Value p (lit "[" ++ w ++ lit "]") (shown (lit "array") p (lit "[" ++ w ++ lit "]") [])
| jn_array p l k : json_nodes Elements (p + 1) l k -> json_nodes Value p (lit "[" ++ l ++ lit "]") (shown (lit "array") p (lit "[" ++ l ++ lit "]") k)
| jn_string p w : j_string w -> json_nodes Value p w (shown (lit "string") p w [])
| jn_number p w : j_number w -> json_nodes Value p w (shown (lit "number") p w [])
| jn_true p : json_nodes Value p (lit "true") (shown (lit "bool") p (lit "true") [])
| jn_false p : json_nodes Value p (lit "false") (shown (lit "bool") p (lit "false") [])
| jn_null p : json_nodes Value p (lit "null") (shown (lit "null") p (lit "null") [])
| jn_member p w1 q w2 x k : j_ws w1 -> j_string q -> j_ws w2 -> json_nodes Element (p + slen (w1 ++ q ++ w2) + 1) x k ->
    json_nodes Member p (w1 ++ q ++ w2 ++ lit ":" ++ x) (shown (lit "key") (p + slen w1) q [] ++ k)
| jn_members1 p m k : json_nodes Member p m k -> json_nodes Members p m k
| jn_members p m l k1 k2 : json_nodes Member p m k1 -> json_nodes Members (p + slen m + 1) l k2 -> json_nodes Members p (m ++ lit "," ++ l) (k1 ++ k2)
| jn_element p w1 v w2 k : j_ws w1 -> json_nodes Value (p + slen w1) v k -> j_ws w2 -> json_nodes Element p (w1 ++ v ++ w2) k
| jn_elements1 p x k : json_nodes Element p x k -> json_nodes Elements p x k
| jn_elements p x l k1 k2 : json_nodes Element p x k1 -> json_nodes Elements (p + slen x + 1) l k2 -> json_nodes Elements p (x ++ lit "," ++ l) (k1 ++ k2).
End Nodes.

(** A forest within [p] and [q]: segments are not empty, siblings do not overlap and what is inside is smaller. *)
Inductive tidy : Z -> Z -> list node -> Prop :=
| tidy_nil p q : tidy p q []
| tidy_cons p q s c k : p <= t_from (s_tok s) -> t_from (s_tok s) < t_to (s_tok s) -> t_to (s_tok s) <= q ->
    tidy (t_from (s_tok s) + 1) (t_to (s_tok s) - 1) c -> tidy (t_to (s_tok s)) q k -> tidy p q (Node s c :: k).
(** From the start of the first to the end of the last. *)
Definition extent (k : list node) : token :=
  match k with [] => mkTok 0 0 | n :: _ => mkTok (t_from (n_tok n)) (t_to (n_tok (last k n))) end.
