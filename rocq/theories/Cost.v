(** Cost.v - how often Read is called: the semantics of Peg.v with a counter. *)
From Verif Require Export PegFacts.
From Coq Require Import Lia ZifyBool.

Section Works.
Context (e : env) (w0 : reader -> nat).
Local Open Scope nat_scope.
(** [works i c b ok c' b' n]: as [eats e i c b ok c' b'], and the readers [r] whose Read is called (also in alternatives
    that fail) weigh [w0 r] each, [n] together. *)
Inductive works : item -> cells -> bytes -> bool -> cells -> bytes -> nat -> Prop :=
| we_test r f c b : rune_test r = Some f -> works (IR r) c b (test f b) c (if test f b then after_rune b else b) (w0 r)
| we_lit_yes x c b : works (IR (RLit x)) c (x ++ b) true c b (w0 (RLit x))
| we_lit_no x c b : (forall t, b <> x ++ t) -> works (IR (RLit x)) c b false c b (w0 (RLit x))
| we_end c b : works (IR RAtEnd) c b (no_text b) c b (w0 RAtEnd)
| we_invalid m c b : works (IR (RInvalid m)) c b false c b (w0 (RInvalid m))
| we_rule i r c b ok c' b' n : r_reader (get_rule e i) = Some r -> works (IR r) c b ok c' b' n -> works (IR (RRule i)) c b ok c' b' (w0 (RRule i) + n)
| we_grammar w p i r c b ok c' b' n : r_reader (get_rule e i) = Some r -> works (IR r) c b ok c' b' n -> works (IR (RGrammar w p i)) c b ok c' b' (w0 (RGrammar w p i) + n)
| we_named w r c b ok c' b' n : works (IR r) c b ok c' b' n -> works (IR (RNamed w r)) c b ok c' b' (w0 (RNamed w r) + n)
| we_rule_name r c b ok c' b' n : works (IR r) c b ok c' b' n -> works (IR (RRuleName r)) c b ok c' b' (w0 (RRuleName r) + n)
| we_monitor w l r c b ok c' b' n : works (IR r) c b ok c' b' n -> works (IR (RMonitor w l r)) c b ok c' b' (w0 (RMonitor w l r) + n)
| we_map id r c b ok c' b' n : works (IR r) c b ok c' b' n -> works (IR (RMap id r)) c b ok c' (if ok then b' else b) (w0 (RMap id r) + n)
| we_pick w k r c b ok c' b' n : works (IR r) c b ok c' b' n -> works (IR (RPick w k r)) c b ok c' (if ok then b' else b) (w0 (RPick w k r) + n)
| we_opt r c b ok c' b' n : works (IR r) c b ok c' b' n -> works (IR (ROpt r)) c b true c' b' (w0 (ROpt r) + n)
| we_at r c b ok c' b' n : works (IR r) c b ok c' b' n -> works (IR (RAt r)) c b ok c' b (w0 (RAt r) + n)
| we_not r c b ok c' b' n : works (IR r) c b ok c' b' n -> works (IR (RNot r)) c b (negb ok) c' (if ok then b else snd (step b)) (w0 (RNot r) + n)
| we_any rs c b ok c' b' n : works (IAny rs) c b ok c' b' n -> works (IR (RAny rs)) c b ok c' (if ok then b' else b) (w0 (RAny rs) + n)
| we_seq rs c b ok c' b' n : works (ISeq rs) c b ok c' b' n -> works (IR (RSeq rs)) c b ok c' (if ok then b' else b) (w0 (RSeq rs) + n)
| we_skip sk rs c b ok c' b' n : works (ISeq (interleave sk rs)) c b ok c' b' n -> works (IR (RSkipSeq sk rs)) c b ok c' (if ok then b' else b) (w0 (RSkipSeq sk rs) + n)
| we_zom r c b c' b' n : works (IRep r) c b true c' b' n -> works (IR (RZom r)) c b true c' b' (w0 (RZom r) + n)
| we_many r c b c' b' n : works (IRep r) c b true c' b' n -> works (IR (RMany r)) c b (Nat.ltb (length b') (length b)) c' b' (w0 (RMany r) + n)
| we_times k r c b ok c' b' n : works (ITimes (Z.to_nat k) r) c b ok c' b' n -> works (IR (RTimes k r)) c b ok c' b' (w0 (RTimes k r) + n)
| we_past r c b ok c' b' n : works (IPast r) c b ok c' b' n -> works (IR (RPast r)) c b ok c' (if ok then b' else b) (w0 (RPast r) + n)
| we_to r c b ok c' b' n : works (ITo r) c b ok c' b' n -> works (IR (RTo r)) c b ok c' (if ok then b' else b) (w0 (RTo r) + n)
| we_body d t c b ok c' b' n : works (IBody b true d t) c b ok c' b' n -> works (IR (RBody d t)) c b ok c' (if ok then b' else b) (w0 (RBody d t) + n)
| we_body_tail d t c b ok c' b' n : works (IBody b false d t) c b ok c' b' n -> works (IR (RBodyTail d t)) c b ok c' (if ok then b' else b) (w0 (RBodyTail d t) + n)
| we_janus_yes i w r c x c' b n : works (IR r) c (x ++ b) true c' b n -> works (IR (RJanusBeg i w r)) c (x ++ b) true (put [] c' i x) b (w0 (RJanusBeg i w r) + n)
| we_janus_no i w r c b c' b' n : works (IR r) c b false c' b' n -> works (IR (RJanusBeg i w r)) c b false c' b (w0 (RJanusBeg i w r) + n)
| we_end_yes i w c b : works (IR (RJanusEnd i w)) c (get [] c i ++ b) true (put [] c i []) b (w0 (RJanusEnd i w))
| we_end_no i w c b : (forall t, b <> get [] c i ++ t) -> works (IR (RJanusEnd i w)) c b false c b (w0 (RJanusEnd i w))
| wi_any_nil c b : works (IAny []) c b false c b 0
| wi_any_hit r rs c b c' b' n : works (IR r) c b true c' b' n -> works (IAny (r :: rs)) c b true c' b' n
| wi_any_next r rs c b c1 b1 ok c' b' n1 n2 : works (IR r) c b false c1 b1 n1 -> works (IAny rs) c1 b1 ok c' b' n2 -> works (IAny (r :: rs)) c b ok c' b' (n1 + n2)
| wi_seq_nil c b : works (ISeq []) c b true c b 0
| wi_seq_stop r rs c b c' b' n : works (IR r) c b false c' b' n -> works (ISeq (r :: rs)) c b false c' b' n
| wi_seq_next r rs c b c1 b1 ok c' b' n1 n2 : works (IR r) c b true c1 b1 n1 -> works (ISeq rs) c1 b1 ok c' b' n2 -> works (ISeq (r :: rs)) c b ok c' b' (n1 + n2)
| wi_rep_stop r c b c' b' n : works (IR r) c b false c' b' n -> works (IRep r) c b true c' b' n
| wi_rep_next r c b c1 b1 c' b' n1 n2 : works (IR r) c b true c1 b1 n1 -> works (IRep r) c1 b1 true c' b' n2 -> works (IRep r) c b true c' b' (n1 + n2)
| wi_times_0 r c b : works (ITimes 0 r) c b true c b 0
| wi_times_stop k r c b c' b' n : works (IR r) c b false c' b' n -> works (ITimes (S k) r) c b false c' b' n
| wi_times_next k r c b c1 b1 ok c' b' n1 n2 : works (IR r) c b true c1 b1 n1 -> works (ITimes k r) c1 b1 ok c' b' n2 -> works (ITimes (S k) r) c b ok c' b' (n1 + n2)
| wi_past_end r c : works (IPast r) c [] false c [] 0
| wi_past_hit r c b c' b' n : b <> [] -> works (IR r) c b true c' b' n -> works (IPast r) c b true c' b' n
| wi_past_next r c b c1 b1 ok c' b' n1 n2 : b <> [] -> works (IR r) c b false c1 b1 n1 -> works (IPast r) c1 (snd (step b1)) ok c' b' n2 -> works (IPast r) c b ok c' b' (n1 + n2)
| wi_to_hit r c b c' b' n : works (IR r) c b true c' b' n -> works (ITo r) c b true c' b n
| wi_to_stop r c b c' b1 b' n : works (IR r) c b false c' b1 n -> step b1 = (false, b') -> works (ITo r) c b false c' b' n
| wi_to_next r c b c1 b1 b2 ok c' b' n1 n2 : works (IR r) c b false c1 b1 n1 -> step b1 = (true, b2) -> works (ITo r) c1 b2 ok c' b' n2 -> works (ITo r) c b ok c' b' (n1 + n2)
| wi_body_end z k d t c : works (IBody z k d t) c [] false c [] 0
| wi_body_hit k d t c str b c1 b1 ok c' x n1 n2 : b <> [] -> works (IR t) c b true c1 b1 n1 -> works (IR d) c1 str ok c' x n2 -> works (IBody (str ++ b) k d t) c b (ok && no_text x) c' (if k && (ok && no_text x) then b else b1) (n1 + n2)
| wi_body_next z k d t c b c1 b1 ok c' b' n1 n2 : b <> [] -> works (IR t) c b false c1 b1 n1 -> works (IBody z k d t) c1 (snd (step b1)) ok c' b' n2 -> works (IBody z k d t) c b ok c' b' (n1 + n2).
End Works.
(** All calls of Read. *)
Definition each (r : reader) : nat := 1%nat.
