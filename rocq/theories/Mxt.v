(** Mxt.v - grammar/mxt.go. *)
From Verif Require Export Grammar.

(** grammar/mxt.go:10-25 (type MXTReader) *)
Definition mxt_fields : gstruct :=
  [rule_field "Chunks" "chunks"; rule_field "Chunk" "chunk"; rule_field "Header" "header";
   rule_field "Marker" "marker"; rule_field "NextMarker" "next-marker"; rule_field "Name" "name";
   rule_field "Comment" "comment"; rule_field "Arrow" "arrow"; rule_field "Salt" "salt";
   rule_field "EmptyContent" "empty-content"; rule_field "Content" "content";
   rule_field "Word" "word"; rule_field "WordChar" "wordchar"; rule_field "NL" "nl"].
Definition mChunks := 0%nat.     Definition mChunk := 1%nat.        Definition mHeader := 2%nat.
Definition mMarker := 3%nat.     Definition mNextMarker := 4%nat.   Definition mName := 5%nat.
Definition mComment := 6%nat.    Definition mArrow := 7%nat.        Definition mSalt := 8%nat.
Definition mEmptyContent := 9%nat. Definition mContent := 10%nat.   Definition mWord := 11%nat.
Definition mWordChar := 12%nat.  Definition mNL := 13%nat.

Definition mar (i : nat) : arg := AReader (RRule i).
(** The cell shared by saltHead and saltTail. *)
Definition mxt_cell := 0%nat.

(** grammar/mxt.go:30-49, one definition per assignment *)
Definition mxt_nl := nl.                                                          (* 32 *)
Definition mxt_wordchar := RBetween 0x21 MaxRune.                                 (* 33 *)
Definition mxt_word := mk_many (mar mWordChar).                                   (* 34 *)
Definition mxt_marker := mk_seq [AReader (RLit (lit "//")); AReader (mk_zom (mar mWordChar))]. (* 35 *)
Definition mxt_name := RRule mWord.                                               (* 36 *)
Definition mxt_arrow := RBodyTail (mk_zom (mar mWordChar)) (RLit (lit "-->")).    (* 37, 39 *)
Definition mxt_comment := mk_to (AReader (RNamed (lit "arrow") mxt_arrow)).       (* 38 *)
Definition mxt_salt_head : reader := fst (janus mxt_cell [] (mk_opt (mar mWord))). (* 40 *)
Definition mxt_salt_tail : reader := snd (janus mxt_cell [] (mk_opt (mar mWord))).
Definition mxt_salt :=                                                            (* 41 *)
  mk_seq [AReader (mk_many (ARune 0x20)); AReader mxt_salt_head; AReader (mk_zom (ARune 0x20))].
Definition mxt_header :=                                                          (* 42 *)
  mk_seq [mar mMarker; AReader (mk_many (ARune 0x20)); mar mName; mar mComment; mar mArrow;
          AReader (mk_opt (mar mSalt))].
Definition mxt_nextmarker := mk_seq [mar mNL; AStr (lit "//"); AReader mxt_salt_tail]. (* 43 *)
Definition mxt_emptycontent := mk_any [AReader RAtEnd; AReader (RAt (RRule mNextMarker))]. (* 44 *)
Definition mxt_content := mk_to (AReader (mk_any [mar mNextMarker; AReader RAtEnd])). (* 45 *)
Definition mxt_chunk :=                                                           (* 46 *)
  mk_seq [mar mHeader; AReader (mk_any [mar mEmptyContent; AReader (mk_seq [mar mNL; mar mContent])])].
Definition mxt_chunks :=                                                          (* 47 *)
  mk_seq [mar mChunk; AReader (mk_zom (AReader (mk_seq [mar mNL; mar mChunk])))].

Definition mxt_readers : list reader :=
  [mxt_chunks; mxt_chunk; mxt_header; mxt_marker; mxt_nextmarker; mxt_name; mxt_comment;
   mxt_arrow; mxt_salt; mxt_emptycontent; mxt_content; mxt_word; mxt_wordchar; mxt_nl].
(** grammar/mxt.go:29-49 (MXT) *)
Definition mxt_env {L : GoLib} : env := build_grammar mxt_fields mxt_readers.
(** grammar/mxt.go:51-61 (MXTReader.Read, What) *)
Definition mxt : reader := RGrammar (lit "mxt") (lit "mxt parse error: ") mChunks.
