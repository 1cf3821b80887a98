(** SpecMxt.v - the files that grammar/mxt.go reads, as byte strings; nothing here refers to the readers. *)
From Verif Require Export SpecLua.

Definition m_solid (x : byte) : Prop := 0x20 < bz x.
Definition m_word (w : bytes) : Prop := Forall m_solid w.
Definition m_gap (w : bytes) : Prop := Forall (fun x => x = x20) w.
Definition m_newline (n : bytes) : Prop := n = [x0a] \/ n = [x0d; x0a].
(** The note between name and arrow begins and ends with a blank (or newline, tab, ...). *)
Definition m_note (c : bytes) : Prop :=
  (exists x t, c = x :: t /\ ~ m_solid x) /\ (exists t y, c = t ++ [y] /\ ~ m_solid y).
(** The text behind the arrow that gives the salt. *)
Definition m_salt (salt z : bytes) : Prop :=
  (z = [] /\ salt = []) \/ exists g1 g2, z = g1 ++ salt ++ g2 /\ g1 <> [] /\ m_gap g1 /\ m_gap g2 /\ m_word salt.
(** A header: // and a word, blanks, the name, a note, the arrow (a word that ends with the first -->), the salt. *)
Inductive m_header (salt : bytes) : bytes -> Prop :=
| mh m g n c ar z : m_word m -> g <> [] -> m_gap g -> n <> [] -> m_word n -> m_note c -> m_word ar ->
    ~ occurs (c ++ ar ++ lit "--") (lit "-->") -> m_salt salt z ->
    m_header salt (lit "//" ++ m ++ g ++ n ++ c ++ ar ++ lit "-->" ++ z).
(** The next header begins here: a newline, // and the salt. *)
Definition m_next (salt b : bytes) : Prop := exists n, m_newline n /\ begins b (n ++ lit "//" ++ salt).
(** A chunk is a header that ends its line, and a content up to the first such place or the end of the text. *)
Inductive m_chunk : bytes -> bytes -> Prop :=
| mc_empty h salt b' : m_header salt h -> b' = [] \/ m_next salt b' -> m_chunk (h ++ b') b'
| mc_content h salt n c b' : m_header salt h -> m_newline n -> b' = [] \/ m_next salt b' ->
    ~ m_next salt (n ++ c ++ b') -> (forall u v, c = u ++ v -> v <> [] -> ~ m_next salt (v ++ b')) ->
    m_chunk (h ++ n ++ c ++ b') b'.
(** Chunks separated by newlines, as many as there are; [m_chunks b b']: [b'] is left. *)
Inductive m_more : bytes -> bytes -> Prop :=
| mm_stop b : (forall n b1 b', m_newline n -> b = n ++ b1 -> ~ m_chunk b1 b') -> m_more b b
| mm_next n b b1 b' : m_newline n -> m_chunk b b1 -> m_more b1 b' -> m_more (n ++ b) b'.
Definition m_chunks (b b' : bytes) : Prop := exists b1, m_chunk b b1 /\ m_more b1 b'.
