(** PropMxtBlame.v - C157: which error MXT() returns. *)
From Verif Require Import MxtBlame PegTotal PegBytes Mxt Utf8Facts ReadFacts ReaderSteps JsonBlame ExKit.
From Coq Require Import Lia ZifyBool.

(** C157.  [m_wrong b u w] (MxtBlame.v, nothing there refers to the readers) says for the rest [b] of a well-formed text that the error stands behind [u] and names [w]:
    no // at the place: the place itself, and the marker; no blank behind the // and its word: that place, and the blanks; no name behind the blanks: that place, and the word characters;
    no --> anywhere behind the name: the end of the name, and the arrow; something else than the end of the line or of the text behind the longest header: that place, and the newline. *)
Theorem C157_mxt_error {L : GoLib} s a b x s' : at_split s a b -> wf_text b -> reads mxt_env mxt s (Some x) s' ->
  exists u w, m_wrong b u w /\ x = EOther (lit "mxt parse error: not able to read " ++ w ++ lit " at " ++ itoa (pos (sc s) + slen u)).
Proof. intros Sp W R. exact (mxt_blame _ _ _ _ _ _ (stands_split _ _ _ Sp) W R). Qed.
Print Assumptions C157_mxt_error.
(** Such texts are not read, whatever the cell of the salt has. *)
Theorem C157_mxt_wrong {L : GoLib} s a b y s' u w : at_split s a b -> wf_text b -> m_wrong b u w -> reads mxt_env mxt s y s' ->
  y = Some (EOther (lit "mxt parse error: not able to read " ++ w ++ lit " at " ++ itoa (pos (sc s) + slen u))).
Proof. intros Sp W H R. exact (mxt_wrong _ _ _ _ _ _ _ _ (stands_split _ _ _ Sp) W H R). Qed.
Print Assumptions C157_mxt_wrong.
(** That is one error. *)
Theorem C157_mxt_error_unique b u w u' w' : m_wrong b u w -> m_wrong b u' w' -> u = u' /\ w = w'.
Proof. apply m_wrong_unique. Qed.
Print Assumptions C157_mxt_error_unique.
(** What stands before the place is right: it can be continued to a whole text. *)
Theorem C157_mxt_continues b u w : wf_text b -> m_wrong b u w -> exists v, wf_text (u ++ v) /\ m_chunks (u ++ v) [].
Proof. apply wrong_continues. Qed.
Print Assumptions C157_mxt_continues.

(** One text of each kind. *)
Example C157_case :
  m_wrong (lit "/ a -->") [] (x22 :: lit "//" ++ [x22]) /\
  m_wrong (lit "//a" ++ [x0a]) (lit "//a") (lit "+' '") /\
  m_wrong (lit "//a ") (lit "//a ") (lit "+wordchar") /\
  m_wrong (lit "//a b -> c") (lit "//a b") (lit "->arrow") /\
  m_wrong (lit "// b -->x") (lit "// b -->") (x22 :: lit "\r\n" ++ [x22]).
Proof.
  split; [constructor; discriminate|]. split; [apply (mw_gap (lit "a") [x0a]); [repeat constructor; vm_compute; auto|]|].
  { intros (x & r & Q & X). injection Q as <- <-. vm_compute in X. congruence. }
  split; [apply (mw_name (lit "a") (lit " ") []); try discriminate; [repeat constructor; vm_compute; auto..|]|].
  { intros (x & r & Q & X). discriminate. }
  split; [apply (mw_arrow (lit "a") (lit " ") (lit "b") (lit " -> c")); try discriminate; [repeat constructor; vm_compute; auto..| |]|].
  { intros (x & r & Q & X). injection Q as <- <-. vm_compute in X. congruence. }
  { intros (u & v & Q). repeat (destruct u as [|? u]; [discriminate Q|]; try discriminate Q; injection Q as _ Q). }
  apply (mw_line (lit "// b -->") (lit "x")); [|discriminate|intros n q [->| ->]; discriminate].
  apply (header_longest [] (lit " ") (lit "b") (lit " ") [] [] (lit "x") []); try discriminate; try (repeat constructor; vm_compute; auto; fail).
  - split; [exists x20, []|exists [], x20]; (split; [reflexivity|]); vm_compute; congruence.
  - intros (u & v & Q). repeat (destruct u as [|? u]; [discriminate Q|]; try discriminate Q; injection Q as _ Q).
Qed.
Example C157_run_case {L : GoLib} : exists s', reads mxt_env mxt (mk (lit "x//a b -> c") 1) (Some (EOther (lit "mxt parse error: not able to read ->arrow at 6"))) s'.
Proof. eexists. exists 60%nat. vm_compute. reflexivity. Qed.
