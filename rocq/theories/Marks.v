(** Marks.v - what a Basket contains after a Read: the semantics of Peg.v with the list of picked segments. *)
From Verif Require Export Peg BasketFacts.
From Coq Require Import Lia ZifyBool.

Section Marks.
(** Grammar, basket, the rules that pick nothing, and the length of the text. *)
Context (e : env) (k : nat) (R : nat -> bool) (N : Z).
(** The segment of a reader that was at rest [b] and succeeded at rest [b']. *)
Definition seg_of (w b b' : bytes) : segment := mkSeg w (mkTok (N - slen b) (N - slen b')).
(** Going back to rest [b]: segments that end behind it are dropped. *)
Definition cut (b : bytes) (l : list segment) : list segment := filter (fun g => t_to (s_tok g) <=? N - slen b) l.
Definition back (ok : bool) (b : bytes) (l : list segment) : list segment := if ok then l else cut b l.
Definition picked_by (w : bytes) (k' : nat) (b b' : bytes) : list segment := if Nat.eqb k' k then [seg_of w b b'] else [].

(** [marks i c b ok c' b' l]: as [eats e i c b ok c' b'], and [l] is what is added to the basket.
    A Pick adds its segment after those of the readers inside it. *)
Inductive marks : item -> cells -> bytes -> bool -> cells -> bytes -> list segment -> Prop :=
| m_test r f c b : rune_test r = Some f -> marks (IR r) c b (test f b) c (if test f b then after_rune b else b) []
| m_lit_yes x c b : marks (IR (RLit x)) c (x ++ b) true c b []
| m_lit_no x c b : (forall t, b <> x ++ t) -> marks (IR (RLit x)) c b false c b []
| m_end c b : marks (IR RAtEnd) c b (no_text b) c b []
| m_invalid m c b : marks (IR (RInvalid m)) c b false c b []
| m_rule i r c b ok c' b' l : r_reader (get_rule e i) = Some r -> marks (IR r) c b ok c' b' l -> marks (IR (RRule i)) c b ok c' b' l
| m_grammar w p i r c b ok c' b' l : r_reader (get_rule e i) = Some r -> marks (IR r) c b ok c' b' l -> marks (IR (RGrammar w p i)) c b ok c' b' l
| m_named w r c b ok c' b' l : marks (IR r) c b ok c' b' l -> marks (IR (RNamed w r)) c b ok c' b' l
| m_rule_name r c b ok c' b' l : marks (IR r) c b ok c' b' l -> marks (IR (RRuleName r)) c b ok c' b' l
| m_monitor w lg r c b ok c' b' l : marks (IR r) c b ok c' b' l -> marks (IR (RMonitor w lg r)) c b ok c' b' l
| m_map id r c b ok c' b' l : marks (IR r) c b ok c' b' l -> marks (IR (RMap id r)) c b ok c' (if ok then b' else b) (back ok b l)
| m_pick w k' r c b ok c' b' l : marks (IR r) c b ok c' b' l ->
    marks (IR (RPick w k' r)) c b ok c' (if ok then b' else b) (if ok then l ++ picked_by w k' b b' else cut b l)
| m_opt r c b ok c' b' l : marks (IR r) c b ok c' b' l -> marks (IR (ROpt r)) c b true c' b' l
| m_at r c b ok c' b' l : marks (IR r) c b ok c' b' l -> marks (IR (RAt r)) c b ok c' b (cut b l)
| m_not r c b ok c' b' l : marks (IR r) c b ok c' b' l -> marks (IR (RNot r)) c b (negb ok) c' (if ok then b else snd (step b)) (cut b l)
| m_any rs c b ok c' b' l : marks (IAny rs) c b ok c' b' l -> marks (IR (RAny rs)) c b ok c' (if ok then b' else b) (back ok b l)
| m_seq rs c b ok c' b' l : marks (ISeq rs) c b ok c' b' l -> marks (IR (RSeq rs)) c b ok c' (if ok then b' else b) (back ok b l)
| m_skip sk rs c b ok c' b' l : marks (ISeq (interleave sk rs)) c b ok c' b' l -> marks (IR (RSkipSeq sk rs)) c b ok c' (if ok then b' else b) (back ok b l)
| m_zom r c b c' b' l : marks (IRep r) c b true c' b' l -> marks (IR (RZom r)) c b true c' b' l
| m_many r c b c' b' l : marks (IRep r) c b true c' b' l -> marks (IR (RMany r)) c b (Nat.ltb (length b') (length b)) c' b' l
| m_times n r c b ok c' b' l : marks (ITimes (Z.to_nat n) r) c b ok c' b' l -> marks (IR (RTimes n r)) c b ok c' b' l
| m_past r c b ok c' b' l : marks (IPast r) c b ok c' b' l -> marks (IR (RPast r)) c b ok c' (if ok then b' else b) (back ok b l)
| m_to r c b ok c' b' l : marks (ITo r) c b ok c' b' l -> marks (IR (RTo r)) c b ok c' (if ok then b' else b) (back ok b l)
| m_body d t c b ok c' b' l : marks (IBody b true d t) c b ok c' b' l -> marks (IR (RBody d t)) c b ok c' (if ok then b' else b) (back ok b l)
| m_body_tail d t c b ok c' b' l : marks (IBody b false d t) c b ok c' b' l -> marks (IR (RBodyTail d t)) c b ok c' (if ok then b' else b) (back ok b l)
| m_janus_yes i w r c x c' b l : marks (IR r) c (x ++ b) true c' b l -> marks (IR (RJanusBeg i w r)) c (x ++ b) true (put [] c' i x) b l
| m_janus_no i w r c b c' b' l : marks (IR r) c b false c' b' l -> marks (IR (RJanusBeg i w r)) c b false c' b (cut b l)
| m_end_yes i w c b : marks (IR (RJanusEnd i w)) c (get [] c i ++ b) true (put [] c i []) b []
| m_end_no i w c b : (forall t, b <> get [] c i ++ t) -> marks (IR (RJanusEnd i w)) c b false c b []
| mi_any_nil c b : marks (IAny []) c b false c b []
| mi_any_hit r rs c b c' b' l : marks (IR r) c b true c' b' l -> marks (IAny (r :: rs)) c b true c' b' l
| mi_any_next r rs c b c1 b1 l1 ok c' b' l : marks (IR r) c b false c1 b1 l1 -> marks (IAny rs) c1 b1 ok c' b' l -> marks (IAny (r :: rs)) c b ok c' b' (l1 ++ l)
| mi_seq_nil c b : marks (ISeq []) c b true c b []
| mi_seq_stop r rs c b c' b' l : marks (IR r) c b false c' b' l -> marks (ISeq (r :: rs)) c b false c' b' l
| mi_seq_next r rs c b c1 b1 l1 ok c' b' l : marks (IR r) c b true c1 b1 l1 -> marks (ISeq rs) c1 b1 ok c' b' l -> marks (ISeq (r :: rs)) c b ok c' b' (l1 ++ l)
| mi_rep_stop r c b c' b' l : marks (IR r) c b false c' b' l -> marks (IRep r) c b true c' b' l
| mi_rep_next r c b c1 b1 l1 c' b' l : marks (IR r) c b true c1 b1 l1 -> marks (IRep r) c1 b1 true c' b' l -> marks (IRep r) c b true c' b' (l1 ++ l)
| mi_times_0 r c b : marks (ITimes 0 r) c b true c b []
| mi_times_stop n r c b c' b' l : marks (IR r) c b false c' b' l -> marks (ITimes (S n) r) c b false c' b' l
| mi_times_next n r c b c1 b1 l1 ok c' b' l : marks (IR r) c b true c1 b1 l1 -> marks (ITimes n r) c1 b1 ok c' b' l -> marks (ITimes (S n) r) c b ok c' b' (l1 ++ l)
| mi_past_end r c : marks (IPast r) c [] false c [] []
| mi_past_hit r c b c' b' l : b <> [] -> marks (IR r) c b true c' b' l -> marks (IPast r) c b true c' b' l
| mi_past_next r c b c1 b1 l1 ok c' b' l : b <> [] -> marks (IR r) c b false c1 b1 l1 -> marks (IPast r) c1 (snd (step b1)) ok c' b' l -> marks (IPast r) c b ok c' b' (l1 ++ l)
| mi_to_hit r c b c' b' l : marks (IR r) c b true c' b' l -> marks (ITo r) c b true c' b (cut b l)
| mi_to_stop r c b c' b1 b' l : marks (IR r) c b false c' b1 l -> step b1 = (false, b') -> marks (ITo r) c b false c' b' l
| mi_to_next r c b c1 b1 b2 l1 ok c' b' l : marks (IR r) c b false c1 b1 l1 -> step b1 = (true, b2) -> marks (ITo r) c1 b2 ok c' b' l -> marks (ITo r) c b ok c' b' (l1 ++ l)
| mi_body_end z q d t c : marks (IBody z q d t) c [] false c [] []
| mi_body_hit q d t c str b c1 b1 l ok c' x : b <> [] -> marks (IR t) c b true c1 b1 l -> unpicked k R d = true -> eats e (IR d) c1 str ok c' x ->
    marks (IBody (str ++ b) q d t) c b (ok && no_text x) c' (if q && (ok && no_text x) then b else b1) (back (negb (q && (ok && no_text x))) b l)
| mi_body_next z q d t c b c1 b1 l1 ok c' b' l : b <> [] -> marks (IR t) c b false c1 b1 l1 -> marks (IBody z q d t) c1 (snd (step b1)) ok c' b' l ->
    marks (IBody z q d t) c b ok c' b' (l1 ++ l).
End Marks.
