(** Trace.v - the calls of Map functions and the entries of Logs: the semantics of Peg.v with the list of what happens. *)
From Verif Require Export PegFacts LogFacts.
From Coq Require Import Lia ZifyBool.

(** A call of a Map function, and a Read of a monitored reader: log, name, level, start, outcome, end. *)
Inductive act :=
| ACall (id : nat) (t : token)
| ATry (lg : nat) (info : bytes) (level : Z) (from : Z) (ok : bool) (to : Z).
(** Inside a Read monitored by log [lg]. *)
Definition deeper (lg : nat) (a : act) : act :=
  match a with ATry g w v p ok q => if Nat.eqb g lg then ATry g w (v + 1) p ok q else a | _ => a end.
(** The calls in order. *)
Definition calls (l : list act) : list (nat * token) :=
  flat_map (fun a => match a with ACall id t => [(id, t)] | _ => [] end) l.
(** The Reads that log [lg] sees, in the order in which they start. *)
Definition tries (lg : nat) (l : list act) : list act :=
  filter (fun a => match a with ATry g _ _ _ _ _ => Nat.eqb g lg | _ => false end) l.
(** The entry of such a Read, in a Log that was at level [v]; end and error may be missing. *)
Definition entry_of (v : Z) (a : act) (en : entry) : Prop :=
  match a with
  | ATry _ w d p ok q => e_info en = w /\ e_level en = v + d /\ e_enter en = p /\
      (e_exit en = q /\ okx (e_err en) = ok \/ e_exit en = 0 /\ e_err en = None)
  | _ => False
  end.

(** [traces e N i c b ok c' b' l]: as [eats e i c b ok c' b'] in a text of length [N], and [l] happens.
    Nothing is taken back. *)
Inductive traces (e : env) : Z -> item -> cells -> bytes -> bool -> cells -> bytes -> list act -> Prop :=
| te_test r f c b N : rune_test r = Some f -> traces e N (IR r) c b (test f b) c (if test f b then after_rune b else b) []
| te_lit_yes x c b N : traces e N (IR (RLit x)) c (x ++ b) true c b []
| te_lit_no x c b N : (forall t, b <> x ++ t) -> traces e N (IR (RLit x)) c b false c b []
| te_end c b N : traces e N (IR RAtEnd) c b (no_text b) c b []
| te_invalid m c b N : traces e N (IR (RInvalid m)) c b false c b []
| te_rule i r c b ok c' b' N l : r_reader (get_rule e i) = Some r -> traces e N (IR r) c b ok c' b' l -> traces e N (IR (RRule i)) c b ok c' b' l
| te_grammar w p i r c b ok c' b' N l : r_reader (get_rule e i) = Some r -> traces e N (IR r) c b ok c' b' l -> traces e N (IR (RGrammar w p i)) c b ok c' b' l
| te_named w r c b ok c' b' N l : traces e N (IR r) c b ok c' b' l -> traces e N (IR (RNamed w r)) c b ok c' b' l
| te_rule_name r c b ok c' b' N l : traces e N (IR r) c b ok c' b' l -> traces e N (IR (RRuleName r)) c b ok c' b' l
| te_monitor w lg r c b ok c' b' N l : traces e N (IR r) c b ok c' b' l -> traces e N (IR (RMonitor w lg r)) c b ok c' b' (ATry lg w 1 (N - slen b) ok (N - slen b') :: map (deeper lg) l)
| te_map id r c b ok c' b' N l : traces e N (IR r) c b ok c' b' l -> traces e N (IR (RMap id r)) c b ok c' (if ok then b' else b) (if ok then l ++ [ACall id (mkTok (N - slen b) (N - slen b'))] else l)
| te_pick w k r c b ok c' b' N l : traces e N (IR r) c b ok c' b' l -> traces e N (IR (RPick w k r)) c b ok c' (if ok then b' else b) l
| te_opt r c b ok c' b' N l : traces e N (IR r) c b ok c' b' l -> traces e N (IR (ROpt r)) c b true c' b' l
| te_at r c b ok c' b' N l : traces e N (IR r) c b ok c' b' l -> traces e N (IR (RAt r)) c b ok c' b l
| te_not r c b ok c' b' N l : traces e N (IR r) c b ok c' b' l -> traces e N (IR (RNot r)) c b (negb ok) c' (if ok then b else snd (step b)) l
| te_any rs c b ok c' b' N l : traces e N (IAny rs) c b ok c' b' l -> traces e N (IR (RAny rs)) c b ok c' (if ok then b' else b) l
| te_seq rs c b ok c' b' N l : traces e N (ISeq rs) c b ok c' b' l -> traces e N (IR (RSeq rs)) c b ok c' (if ok then b' else b) l
| te_skip sk rs c b ok c' b' N l : traces e N (ISeq (interleave sk rs)) c b ok c' b' l -> traces e N (IR (RSkipSeq sk rs)) c b ok c' (if ok then b' else b) l
| te_zom r c b c' b' N l : traces e N (IRep r) c b true c' b' l -> traces e N (IR (RZom r)) c b true c' b' l
| te_many r c b c' b' N l : traces e N (IRep r) c b true c' b' l -> traces e N (IR (RMany r)) c b (Nat.ltb (length b') (length b)) c' b' l
| te_times k r c b ok c' b' N l : traces e N (ITimes (Z.to_nat k) r) c b ok c' b' l -> traces e N (IR (RTimes k r)) c b ok c' b' l
| te_past r c b ok c' b' N l : traces e N (IPast r) c b ok c' b' l -> traces e N (IR (RPast r)) c b ok c' (if ok then b' else b) l
| te_to r c b ok c' b' N l : traces e N (ITo r) c b ok c' b' l -> traces e N (IR (RTo r)) c b ok c' (if ok then b' else b) l
| te_body d t c b ok c' b' N l : traces e N (IBody b true d t) c b ok c' b' l -> traces e N (IR (RBody d t)) c b ok c' (if ok then b' else b) l
| te_body_tail d t c b ok c' b' N l : traces e N (IBody b false d t) c b ok c' b' l -> traces e N (IR (RBodyTail d t)) c b ok c' (if ok then b' else b) l
| te_janus_yes i w r c x c' b N l : traces e N (IR r) c (x ++ b) true c' b l -> traces e N (IR (RJanusBeg i w r)) c (x ++ b) true (put [] c' i x) b l
| te_janus_no i w r c b c' b' N l : traces e N (IR r) c b false c' b' l -> traces e N (IR (RJanusBeg i w r)) c b false c' b l
| te_end_yes i w c b N : traces e N (IR (RJanusEnd i w)) c (get [] c i ++ b) true (put [] c i []) b []
| te_end_no i w c b N : (forall t, b <> get [] c i ++ t) -> traces e N (IR (RJanusEnd i w)) c b false c b []
| ti_any_nil c b N : traces e N (IAny []) c b false c b []
| ti_any_hit r rs c b c' b' N l : traces e N (IR r) c b true c' b' l -> traces e N (IAny (r :: rs)) c b true c' b' l
| ti_any_next r rs c b c1 b1 ok c' b' N l1 l2 : traces e N (IR r) c b false c1 b1 l1 -> traces e N (IAny rs) c1 b1 ok c' b' l2 -> traces e N (IAny (r :: rs)) c b ok c' b' (l1 ++ l2)
| ti_seq_nil c b N : traces e N (ISeq []) c b true c b []
| ti_seq_stop r rs c b c' b' N l : traces e N (IR r) c b false c' b' l -> traces e N (ISeq (r :: rs)) c b false c' b' l
| ti_seq_next r rs c b c1 b1 ok c' b' N l1 l2 : traces e N (IR r) c b true c1 b1 l1 -> traces e N (ISeq rs) c1 b1 ok c' b' l2 -> traces e N (ISeq (r :: rs)) c b ok c' b' (l1 ++ l2)
| ti_rep_stop r c b c' b' N l : traces e N (IR r) c b false c' b' l -> traces e N (IRep r) c b true c' b' l
| ti_rep_next r c b c1 b1 c' b' N l1 l2 : traces e N (IR r) c b true c1 b1 l1 -> traces e N (IRep r) c1 b1 true c' b' l2 -> traces e N (IRep r) c b true c' b' (l1 ++ l2)
| ti_times_0 r c b N : traces e N (ITimes 0 r) c b true c b []
| ti_times_stop k r c b c' b' N l : traces e N (IR r) c b false c' b' l -> traces e N (ITimes (S k) r) c b false c' b' l
| ti_times_next k r c b c1 b1 ok c' b' N l1 l2 : traces e N (IR r) c b true c1 b1 l1 -> traces e N (ITimes k r) c1 b1 ok c' b' l2 -> traces e N (ITimes (S k) r) c b ok c' b' (l1 ++ l2)
| ti_past_end r c N : traces e N (IPast r) c [] false c [] []
| ti_past_hit r c b c' b' N l : b <> [] -> traces e N (IR r) c b true c' b' l -> traces e N (IPast r) c b true c' b' l
| ti_past_next r c b c1 b1 ok c' b' N l1 l2 : b <> [] -> traces e N (IR r) c b false c1 b1 l1 -> traces e N (IPast r) c1 (snd (step b1)) ok c' b' l2 -> traces e N (IPast r) c b ok c' b' (l1 ++ l2)
| ti_to_hit r c b c' b' N l : traces e N (IR r) c b true c' b' l -> traces e N (ITo r) c b true c' b l
| ti_to_stop r c b c' b1 b' N l : traces e N (IR r) c b false c' b1 l -> step b1 = (false, b') -> traces e N (ITo r) c b false c' b' l
| ti_to_next r c b c1 b1 b2 ok c' b' N l1 l2 : traces e N (IR r) c b false c1 b1 l1 -> step b1 = (true, b2) -> traces e N (ITo r) c1 b2 ok c' b' l2 -> traces e N (ITo r) c b ok c' b' (l1 ++ l2)
| ti_body_end z k d t c N : traces e N (IBody z k d t) c [] false c [] []
| ti_body_hit k d t c str b c1 b1 ok c' x N l1 l2 : b <> [] -> traces e N (IR t) c b true c1 b1 l1 -> traces e (slen str) (IR d) c1 str ok c' x l2 ->
    traces e N (IBody (str ++ b) k d t) c b (ok && no_text x) c' (if k && (ok && no_text x) then b else b1) (l1 ++ l2)
| ti_body_next z k d t c b c1 b1 ok c' b' N l1 l2 : b <> [] -> traces e N (IR t) c b false c1 b1 l1 -> traces e N (IBody z k d t) c1 (snd (step b1)) ok c' b' l2 ->
    traces e N (IBody z k d t) c b ok c' b' (l1 ++ l2).
