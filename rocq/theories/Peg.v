(** Peg.v - the readers as a parsing expression grammar: what a Read does with the
    rest of the text, without scanner, positions and fuel. *)
From Verif Require Export ReaderScan.
From Coq Require Import Lia ZifyBool.
From Verif Require Import ReaderSteps.

(** The strings of the Janus pairs. *)
Definition cells := list bytes.
(** Readers that test one rune; [(v, i)]: rune and width, (U+FFFD, 0) at the end. *)
Definition rune_test (r : reader) : option (Z -> nat -> bool) :=
  match r with
  | RRune c => Some (fun v i => v =? c)
  | RAnyRune str => Some (fun v i => existsb (Z.eqb v) (runes str))
  | RBetween mn mx => Some (fun v i => negb (Nat.eqb i 0) && in_range mn v mx)
  | RMatch _ f => Some (fun v i => negb (Nat.eqb i 0) && f v)
  | RHoley mn mx holes => Some (fun v i => in_range mn v mx && negb (contains_rune holes v))
  | RBetweenAny ranges singles => Some (fun v i =>
      negb (Nat.eqb i 0) && existsb (fun q => in_range (fst q) v (snd q)) ranges || existsb (Z.eqb v) (runes singles))
  | _ => None
  end.
Definition test (f : Z -> nat -> bool) (b : bytes) : bool := f (fst (decode_rune b)) (snd (decode_rune b)).
Definition after_rune (b : bytes) : bytes := skipn (snd (decode_rune b)) b.
(** MoveRunes(1): the width is that of the decoded rune, three for an ill-formed byte. *)
Definition step (b : bytes) : bool * bytes :=
  let w := Z.to_nat (rune_len (fst (decode_rune b))) in
  match b with [] => (false, []) | _ => if Nat.leb w (length b) then (true, skipn w b) else (false, b) end.
Definition no_text (b : bytes) : bool := match b with [] => true | _ => false end.

(** Readers, and the loops inside them. *)
Inductive item :=
| IR (r : reader) | IAny (rs : list reader) | ISeq (rs : list reader) | IRep (r : reader)
| ITimes (k : nat) (r : reader) | IPast (r : reader) | ITo (r : reader)
| IBody (start : bytes) (back : bool) (body tl : reader).

(** [eats e i c b ok c' b']: with strings [c] and rest [b] of the text, [i] succeeds or fails
    and leaves the strings [c'] and the rest [b']. *)
Inductive eats (e : env) : item -> cells -> bytes -> bool -> cells -> bytes -> Prop :=
| e_test r f c b : rune_test r = Some f -> eats e (IR r) c b (test f b) c (if test f b then after_rune b else b)
| e_lit_yes x c b : eats e (IR (RLit x)) c (x ++ b) true c b
| e_lit_no x c b : (forall t, b <> x ++ t) -> eats e (IR (RLit x)) c b false c b
| e_end c b : eats e (IR RAtEnd) c b (no_text b) c b
| e_invalid m c b : eats e (IR (RInvalid m)) c b false c b
| e_rule i r c b ok c' b' : r_reader (get_rule e i) = Some r -> eats e (IR r) c b ok c' b' -> eats e (IR (RRule i)) c b ok c' b'
| e_grammar w p i r c b ok c' b' : r_reader (get_rule e i) = Some r -> eats e (IR r) c b ok c' b' -> eats e (IR (RGrammar w p i)) c b ok c' b'
| e_named w r c b ok c' b' : eats e (IR r) c b ok c' b' -> eats e (IR (RNamed w r)) c b ok c' b'
| e_rule_name r c b ok c' b' : eats e (IR r) c b ok c' b' -> eats e (IR (RRuleName r)) c b ok c' b'
| e_monitor w l r c b ok c' b' : eats e (IR r) c b ok c' b' -> eats e (IR (RMonitor w l r)) c b ok c' b'
| e_map id r c b ok c' b' : eats e (IR r) c b ok c' b' -> eats e (IR (RMap id r)) c b ok c' (if ok then b' else b)
| e_pick w k r c b ok c' b' : eats e (IR r) c b ok c' b' -> eats e (IR (RPick w k r)) c b ok c' (if ok then b' else b)
| e_opt r c b ok c' b' : eats e (IR r) c b ok c' b' -> eats e (IR (ROpt r)) c b true c' b'
| e_at r c b ok c' b' : eats e (IR r) c b ok c' b' -> eats e (IR (RAt r)) c b ok c' b
| e_not r c b ok c' b' : eats e (IR r) c b ok c' b' -> eats e (IR (RNot r)) c b (negb ok) c' (if ok then b else snd (step b))
| e_any rs c b ok c' b' : eats e (IAny rs) c b ok c' b' -> eats e (IR (RAny rs)) c b ok c' (if ok then b' else b)
| e_seq rs c b ok c' b' : eats e (ISeq rs) c b ok c' b' -> eats e (IR (RSeq rs)) c b ok c' (if ok then b' else b)
| e_skip sk rs c b ok c' b' : eats e (ISeq (interleave sk rs)) c b ok c' b' -> eats e (IR (RSkipSeq sk rs)) c b ok c' (if ok then b' else b)
| e_zom r c b c' b' : eats e (IRep r) c b true c' b' -> eats e (IR (RZom r)) c b true c' b'
| e_many r c b c' b' : eats e (IRep r) c b true c' b' -> eats e (IR (RMany r)) c b (Nat.ltb (length b') (length b)) c' b'
| e_times k r c b ok c' b' : eats e (ITimes (Z.to_nat k) r) c b ok c' b' -> eats e (IR (RTimes k r)) c b ok c' b'
| e_past r c b ok c' b' : eats e (IPast r) c b ok c' b' -> eats e (IR (RPast r)) c b ok c' (if ok then b' else b)
| e_to r c b ok c' b' : eats e (ITo r) c b ok c' b' -> eats e (IR (RTo r)) c b ok c' (if ok then b' else b)
| e_body d t c b ok c' b' : eats e (IBody b true d t) c b ok c' b' -> eats e (IR (RBody d t)) c b ok c' (if ok then b' else b)
| e_body_tail d t c b ok c' b' : eats e (IBody b false d t) c b ok c' b' -> eats e (IR (RBodyTail d t)) c b ok c' (if ok then b' else b)
| e_janus_yes i w r c x c' b : eats e (IR r) c (x ++ b) true c' b -> eats e (IR (RJanusBeg i w r)) c (x ++ b) true (put [] c' i x) b
| e_janus_no i w r c b c' b' : eats e (IR r) c b false c' b' -> eats e (IR (RJanusBeg i w r)) c b false c' b
| e_end_yes i w c b : eats e (IR (RJanusEnd i w)) c (get [] c i ++ b) true (put [] c i []) b
| e_end_no i w c b : (forall t, b <> get [] c i ++ t) -> eats e (IR (RJanusEnd i w)) c b false c b
| i_any_nil c b : eats e (IAny []) c b false c b
| i_any_hit r rs c b c' b' : eats e (IR r) c b true c' b' -> eats e (IAny (r :: rs)) c b true c' b'
| i_any_next r rs c b c1 b1 ok c' b' : eats e (IR r) c b false c1 b1 -> eats e (IAny rs) c1 b1 ok c' b' -> eats e (IAny (r :: rs)) c b ok c' b'
| i_seq_nil c b : eats e (ISeq []) c b true c b
| i_seq_stop r rs c b c' b' : eats e (IR r) c b false c' b' -> eats e (ISeq (r :: rs)) c b false c' b'
| i_seq_next r rs c b c1 b1 ok c' b' : eats e (IR r) c b true c1 b1 -> eats e (ISeq rs) c1 b1 ok c' b' -> eats e (ISeq (r :: rs)) c b ok c' b'
| i_rep_stop r c b c' b' : eats e (IR r) c b false c' b' -> eats e (IRep r) c b true c' b'
| i_rep_next r c b c1 b1 c' b' : eats e (IR r) c b true c1 b1 -> eats e (IRep r) c1 b1 true c' b' -> eats e (IRep r) c b true c' b'
| i_times_0 r c b : eats e (ITimes 0 r) c b true c b
| i_times_stop k r c b c' b' : eats e (IR r) c b false c' b' -> eats e (ITimes (S k) r) c b false c' b'
| i_times_next k r c b c1 b1 ok c' b' : eats e (IR r) c b true c1 b1 -> eats e (ITimes k r) c1 b1 ok c' b' -> eats e (ITimes (S k) r) c b ok c' b'
| i_past_end r c : eats e (IPast r) c [] false c []
| i_past_hit r c b c' b' : b <> [] -> eats e (IR r) c b true c' b' -> eats e (IPast r) c b true c' b'
| i_past_next r c b c1 b1 ok c' b' : b <> [] -> eats e (IR r) c b false c1 b1 -> eats e (IPast r) c1 (snd (step b1)) ok c' b' -> eats e (IPast r) c b ok c' b'
| i_to_hit r c b c' b' : eats e (IR r) c b true c' b' -> eats e (ITo r) c b true c' b
| i_to_stop r c b c' b1 b' : eats e (IR r) c b false c' b1 -> step b1 = (false, b') -> eats e (ITo r) c b false c' b'
| i_to_next r c b c1 b1 b2 ok c' b' : eats e (IR r) c b false c1 b1 -> step b1 = (true, b2) -> eats e (ITo r) c1 b2 ok c' b' -> eats e (ITo r) c b ok c' b'
| i_body_end z k d t c : eats e (IBody z k d t) c [] false c []
| i_body_hit k d t c str b c1 b1 ok c' x : b <> [] -> eats e (IR t) c b true c1 b1 -> eats e (IR d) c1 str ok c' x ->
    eats e (IBody (str ++ b) k d t) c b (ok && no_text x) c' (if k && (ok && no_text x) then b else b1)
| i_body_next z k d t c b c1 b1 ok c' b' : b <> [] -> eats e (IR t) c b false c1 b1 -> eats e (IBody z k d t) c1 (snd (step b1)) ok c' b' ->
    eats e (IBody z k d t) c b ok c' b'.

(** The readers covered: all but Fold, Bool, Int, Uint and Wrap. *)
Definition covered (r : reader) : bool :=
  match r with RFold _ | RBool _ _ | RInt _ _ _ | RUint _ _ _ | RWrap _ _ => false | _ => true end.
