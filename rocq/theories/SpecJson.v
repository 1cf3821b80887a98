(** SpecJson.v - JSON (RFC 8259, in the form of McKeeman's grammar on json.org) as sets of byte
    strings; nothing here refers to the readers.  A string character is any byte from 0x20 on but
    quote and backslash: bytes that are not UTF-8 are not excluded. *)
From Verif Require Export Base.

Definition ws_byte (x : byte) : Prop := In x [x20; x0a; x0d; x09].
Definition j_ws (w : bytes) : Prop := Forall ws_byte w.
Definition dig (x : byte) : Prop := 0x30 <= bz x <= 0x39.
Definition hex_dig (x : byte) : Prop := dig x \/ 0x41 <= bz x <= 0x46 \/ 0x61 <= bz x <= 0x66.

(** String contents *)
Definition plain (x : byte) : Prop := 0x20 <= bz x /\ x <> x22 /\ x <> x5c.
Inductive j_chars : bytes -> Prop :=
| jc_nil : j_chars []
| jc_plain x w : plain x -> j_chars w -> j_chars (x :: w)
| jc_escape x w : In x (x22 :: lit "\/bfnrt") -> j_chars w -> j_chars (x5c :: x :: w)
| jc_unicode h1 h2 h3 h4 w : hex_dig h1 -> hex_dig h2 -> hex_dig h3 -> hex_dig h4 -> j_chars w ->
    j_chars (x5c :: x75 :: h1 :: h2 :: h3 :: h4 :: w).
Definition j_string (w : bytes) : Prop := exists u, w = x22 :: u ++ [x22] /\ j_chars u.

(** Numbers *)
Definition digs (w : bytes) : Prop := w <> [] /\ Forall dig w.
Definition j_int (w : bytes) : Prop := exists m n, w = m ++ n /\ (m = [] \/ m = lit "-") /\
  (n = lit "0" \/ exists x d, n = x :: d /\ 0x31 <= bz x <= 0x39 /\ Forall dig d).
Definition j_frac (w : bytes) : Prop := w = [] \/ exists d, w = x2e :: d /\ digs d.
Definition j_exp (w : bytes) : Prop := w = [] \/ exists x s d, w = x :: s ++ d /\
  (x = x65 \/ x = x45) /\ (s = [] \/ s = lit "+" \/ s = lit "-") /\ digs d.
Definition j_number (w : bytes) : Prop := exists i f x, w = i ++ f ++ x /\ j_int i /\ j_frac f /\ j_exp x.

(** Values *)
Inductive jsort := Value | Member | Members | Element | Elements.
Inductive json_text : jsort -> bytes -> Prop :=
| jt_object0 w : j_ws w -> json_text Value (lit "{" ++ w ++ lit "}")
| jt_object m : json_text Members m -> json_text Value (lit "{" ++ m ++ lit "}")
| jt_array0 w : j_ws w -> json_text Value (lit "[" ++ w ++ lit "]")
| jt_array l : json_text Elements l -> json_text Value (lit "[" ++ l ++ lit "]")
| jt_string w : j_string w -> json_text Value w
| jt_number w : j_number w -> json_text Value w
| jt_true : json_text Value (lit "true")
| jt_false : json_text Value (lit "false")
| jt_null : json_text Value (lit "null")
| jt_member w1 k w2 x : j_ws w1 -> j_string k -> j_ws w2 -> json_text Element x ->
    json_text Member (w1 ++ k ++ w2 ++ lit ":" ++ x)
| jt_members1 m : json_text Member m -> json_text Members m
| jt_members m l : json_text Member m -> json_text Members l -> json_text Members (m ++ lit "," ++ l)
| jt_element w1 v w2 : j_ws w1 -> json_text Value v -> j_ws w2 -> json_text Element (w1 ++ v ++ w2)
| jt_elements1 x : json_text Element x -> json_text Elements x
| jt_elements x l : json_text Element x -> json_text Elements l -> json_text Elements (x ++ lit "," ++ l).

(** Texts that break off inside a string, everything before being JSON. *)
Definition cut_string (b : bytes) : Prop := exists u, b = x22 :: u /\ j_chars u.
Inductive cut : jsort -> bytes -> Prop :=
| cut_str b : cut_string b -> cut Value b
| cut_object m : cut Members m -> cut Value (lit "{" ++ m)
| cut_array l : cut Elements l -> cut Value (lit "[" ++ l)
| cut_key w b : j_ws w -> cut_string b -> cut Member (w ++ b)
| cut_member w1 k w2 x : j_ws w1 -> j_string k -> j_ws w2 -> cut Element x ->
    cut Member (w1 ++ k ++ w2 ++ lit ":" ++ x)
| cut_members1 m : cut Member m -> cut Members m
| cut_members m l : json_text Member m -> cut Members l -> cut Members (m ++ lit "," ++ l)
| cut_element w v : j_ws w -> cut Value v -> cut Element (w ++ v)
| cut_elements1 x : cut Element x -> cut Elements x
| cut_elements x l : json_text Element x -> cut Elements l -> cut Elements (x ++ lit "," ++ l).
