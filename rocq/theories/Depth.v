(** Depth.v - how deeply Reads nest: the semantics of Peg.v with the length of the longest chain of Reads inside each other. *)
From Verif Require Export PegFacts.
From Coq Require Import Lia ZifyBool.

Section Dives.
Context (e : env) (w0 : reader -> nat).
Local Open Scope nat_scope.
(** [dives i c b ok c' b' n]: as [eats e i c b ok c' b'], and [n] is the most that a chain of Reads, each
    called by the one before it and not yet returned, weighs (also in alternatives that fail), where a Read of [r] weighs [w0 r]. *)
Inductive dives : item -> cells -> bytes -> bool -> cells -> bytes -> nat -> Prop :=
| de_test r f c b : rune_test r = Some f -> dives (IR r) c b (test f b) c (if test f b then after_rune b else b) (w0 r)
| de_lit_yes x c b : dives (IR (RLit x)) c (x ++ b) true c b (w0 (RLit x))
| de_lit_no x c b : (forall t, b <> x ++ t) -> dives (IR (RLit x)) c b false c b (w0 (RLit x))
| de_end c b : dives (IR RAtEnd) c b (no_text b) c b (w0 RAtEnd)
| de_invalid m c b : dives (IR (RInvalid m)) c b false c b (w0 (RInvalid m))
| de_rule i r c b ok c' b' n : r_reader (get_rule e i) = Some r -> dives (IR r) c b ok c' b' n -> dives (IR (RRule i)) c b ok c' b' (w0 (RRule i) + n)
| de_grammar w p i r c b ok c' b' n : r_reader (get_rule e i) = Some r -> dives (IR r) c b ok c' b' n -> dives (IR (RGrammar w p i)) c b ok c' b' (w0 (RGrammar w p i) + n)
| de_named w r c b ok c' b' n : dives (IR r) c b ok c' b' n -> dives (IR (RNamed w r)) c b ok c' b' (w0 (RNamed w r) + n)
| de_rule_name r c b ok c' b' n : dives (IR r) c b ok c' b' n -> dives (IR (RRuleName r)) c b ok c' b' (w0 (RRuleName r) + n)
| de_monitor w l r c b ok c' b' n : dives (IR r) c b ok c' b' n -> dives (IR (RMonitor w l r)) c b ok c' b' (w0 (RMonitor w l r) + n)
| de_map id r c b ok c' b' n : dives (IR r) c b ok c' b' n -> dives (IR (RMap id r)) c b ok c' (if ok then b' else b) (w0 (RMap id r) + n)
| de_pick w k r c b ok c' b' n : dives (IR r) c b ok c' b' n -> dives (IR (RPick w k r)) c b ok c' (if ok then b' else b) (w0 (RPick w k r) + n)
| de_opt r c b ok c' b' n : dives (IR r) c b ok c' b' n -> dives (IR (ROpt r)) c b true c' b' (w0 (ROpt r) + n)
| de_at r c b ok c' b' n : dives (IR r) c b ok c' b' n -> dives (IR (RAt r)) c b ok c' b (w0 (RAt r) + n)
| de_not r c b ok c' b' n : dives (IR r) c b ok c' b' n -> dives (IR (RNot r)) c b (negb ok) c' (if ok then b else snd (step b)) (w0 (RNot r) + n)
| de_any rs c b ok c' b' n : dives (IAny rs) c b ok c' b' n -> dives (IR (RAny rs)) c b ok c' (if ok then b' else b) (w0 (RAny rs) + n)
| de_seq rs c b ok c' b' n : dives (ISeq rs) c b ok c' b' n -> dives (IR (RSeq rs)) c b ok c' (if ok then b' else b) (w0 (RSeq rs) + n)
| de_skip sk rs c b ok c' b' n : dives (ISeq (interleave sk rs)) c b ok c' b' n -> dives (IR (RSkipSeq sk rs)) c b ok c' (if ok then b' else b) (w0 (RSkipSeq sk rs) + n)
| de_zom r c b c' b' n : dives (IRep r) c b true c' b' n -> dives (IR (RZom r)) c b true c' b' (w0 (RZom r) + n)
| de_many r c b c' b' n : dives (IRep r) c b true c' b' n -> dives (IR (RMany r)) c b (Nat.ltb (length b') (length b)) c' b' (w0 (RMany r) + n)
| de_times k r c b ok c' b' n : dives (ITimes (Z.to_nat k) r) c b ok c' b' n -> dives (IR (RTimes k r)) c b ok c' b' (w0 (RTimes k r) + n)
| de_past r c b ok c' b' n : dives (IPast r) c b ok c' b' n -> dives (IR (RPast r)) c b ok c' (if ok then b' else b) (w0 (RPast r) + n)
| de_to r c b ok c' b' n : dives (ITo r) c b ok c' b' n -> dives (IR (RTo r)) c b ok c' (if ok then b' else b) (w0 (RTo r) + n)
| de_body d t c b ok c' b' n : dives (IBody b true d t) c b ok c' b' n -> dives (IR (RBody d t)) c b ok c' (if ok then b' else b) (w0 (RBody d t) + n)
| de_body_tail d t c b ok c' b' n : dives (IBody b false d t) c b ok c' b' n -> dives (IR (RBodyTail d t)) c b ok c' (if ok then b' else b) (w0 (RBodyTail d t) + n)
| de_janus_yes i w r c x c' b n : dives (IR r) c (x ++ b) true c' b n -> dives (IR (RJanusBeg i w r)) c (x ++ b) true (put [] c' i x) b (w0 (RJanusBeg i w r) + n)
| de_janus_no i w r c b c' b' n : dives (IR r) c b false c' b' n -> dives (IR (RJanusBeg i w r)) c b false c' b (w0 (RJanusBeg i w r) + n)
| de_end_yes i w c b : dives (IR (RJanusEnd i w)) c (get [] c i ++ b) true (put [] c i []) b (w0 (RJanusEnd i w))
| de_end_no i w c b : (forall t, b <> get [] c i ++ t) -> dives (IR (RJanusEnd i w)) c b false c b (w0 (RJanusEnd i w))
| di_any_nil c b : dives (IAny []) c b false c b 0
| di_any_hit r rs c b c' b' n : dives (IR r) c b true c' b' n -> dives (IAny (r :: rs)) c b true c' b' n
| di_any_next r rs c b c1 b1 ok c' b' n1 n2 : dives (IR r) c b false c1 b1 n1 -> dives (IAny rs) c1 b1 ok c' b' n2 -> dives (IAny (r :: rs)) c b ok c' b' (Nat.max n1 n2)
| di_seq_nil c b : dives (ISeq []) c b true c b 0
| di_seq_stop r rs c b c' b' n : dives (IR r) c b false c' b' n -> dives (ISeq (r :: rs)) c b false c' b' n
| di_seq_next r rs c b c1 b1 ok c' b' n1 n2 : dives (IR r) c b true c1 b1 n1 -> dives (ISeq rs) c1 b1 ok c' b' n2 -> dives (ISeq (r :: rs)) c b ok c' b' (Nat.max n1 n2)
| di_rep_stop r c b c' b' n : dives (IR r) c b false c' b' n -> dives (IRep r) c b true c' b' n
| di_rep_next r c b c1 b1 c' b' n1 n2 : dives (IR r) c b true c1 b1 n1 -> dives (IRep r) c1 b1 true c' b' n2 -> dives (IRep r) c b true c' b' (Nat.max n1 n2)
| di_times_0 r c b : dives (ITimes 0 r) c b true c b 0
| di_times_stop k r c b c' b' n : dives (IR r) c b false c' b' n -> dives (ITimes (S k) r) c b false c' b' n
| di_times_next k r c b c1 b1 ok c' b' n1 n2 : dives (IR r) c b true c1 b1 n1 -> dives (ITimes k r) c1 b1 ok c' b' n2 -> dives (ITimes (S k) r) c b ok c' b' (Nat.max n1 n2)
| di_past_end r c : dives (IPast r) c [] false c [] 0
| di_past_hit r c b c' b' n : b <> [] -> dives (IR r) c b true c' b' n -> dives (IPast r) c b true c' b' n
| di_past_next r c b c1 b1 ok c' b' n1 n2 : b <> [] -> dives (IR r) c b false c1 b1 n1 -> dives (IPast r) c1 (snd (step b1)) ok c' b' n2 -> dives (IPast r) c b ok c' b' (Nat.max n1 n2)
| di_to_hit r c b c' b' n : dives (IR r) c b true c' b' n -> dives (ITo r) c b true c' b n
| di_to_stop r c b c' b1 b' n : dives (IR r) c b false c' b1 n -> step b1 = (false, b') -> dives (ITo r) c b false c' b' n
| di_to_next r c b c1 b1 b2 ok c' b' n1 n2 : dives (IR r) c b false c1 b1 n1 -> step b1 = (true, b2) -> dives (ITo r) c1 b2 ok c' b' n2 -> dives (ITo r) c b ok c' b' (Nat.max n1 n2)
| di_body_end z k d t c : dives (IBody z k d t) c [] false c [] 0
| di_body_hit k d t c str b c1 b1 ok c' x n1 n2 : b <> [] -> dives (IR t) c b true c1 b1 n1 -> dives (IR d) c1 str ok c' x n2 -> dives (IBody (str ++ b) k d t) c b (ok && no_text x) c' (if k && (ok && no_text x) then b else b1) (Nat.max n1 n2)
| di_body_next z k d t c b c1 b1 ok c' b' n1 n2 : b <> [] -> dives (IR t) c b false c1 b1 n1 -> dives (IBody z k d t) c1 (snd (step b1)) ok c' b' n2 -> dives (IBody z k d t) c b ok c' b' (Nat.max n1 n2).
End Dives.
