(** SpecCfg.v - the language of a grammar: choices without order, and no backtracking, scanner or position. *)
From Verif Require Export Peg.

Definition cat_of (P Q : bytes -> Prop) (w : bytes) : Prop := exists u v, w = u ++ v /\ P u /\ Q v.
Definition empty_of (w : bytes) : Prop := w = [].
Definition any_text (w : bytes) : Prop := True.
Inductive star_of (P : bytes -> Prop) : bytes -> Prop :=
| so_nil : star_of P []
| so_next u v : P u -> star_of P v -> star_of P (u ++ v).
Fixpoint pow_of (k : nat) (P : bytes -> Prop) : bytes -> Prop :=
  match k with O => empty_of | S k' => cat_of P (pow_of k' P) end.
(** The texts of one rune that passes the test [f]. *)
Definition rune_of (f : Z -> nat -> bool) (w : bytes) : Prop := exists t, test f (w ++ t) = true /\ after_rune (w ++ t) = t.

(** [lang I r]: the texts of [r], if [I i] are those of the rule [i].  Lookahead has only the empty text; Not moves by at
    most one rune; a Janus end and what To skips can be any text. *)
Fixpoint lang (I : nat -> bytes -> Prop) (r : reader) {struct r} : bytes -> Prop :=
  match r with
  | RAny rs => (fix any l := match l with [] => fun _ => False | x :: t => fun w => lang I x w \/ any t w end) rs
  | RSeq rs => (fix seq l := match l with [] => empty_of | x :: t => cat_of (lang I x) (seq t) end) rs
  | RSkipSeq sk rs => cat_of (lang I sk) ((fix seq l := match l with [] => empty_of | x :: t => cat_of (lang I x) (cat_of (lang I sk) (seq t)) end) rs)
  | RRule i | RGrammar _ _ i => I i
  | RLit x => fun w => w = x
  | RAt _ | RAtEnd => empty_of
  | RNot _ => fun w => (length w <= 4)%nat
  | ROpt a => fun w => w = [] \/ lang I a w
  | RZom a => star_of (lang I a)
  | RMany a => cat_of (lang I a) (star_of (lang I a))
  | RTimes n a => pow_of (Z.to_nat n) (lang I a)
  | RPast a => cat_of any_text (lang I a)
  | RTo _ => any_text
  | RBody d _ => lang I d
  | RBodyTail d t => cat_of (lang I d) (lang I t)
  | RJanusBeg _ _ a | RMap _ a | RNamed _ a | RPick _ _ a | RMonitor _ _ a | RRuleName a => lang I a
  | RJanusEnd _ _ => any_text
  | RInvalid _ => fun _ => False
  | RAnyRune _ | RBetween _ _ | RBetweenAny _ _ | RHoley _ _ _ | RMatch _ _ | RRune _ =>
      match rune_test r with Some f => rune_of f | None => any_text end
  | RFold _ | RBool _ _ | RInt _ _ _ | RUint _ _ _ | RWrap _ _ => any_text
  end.
(** [I] is closed under the rules; the language of the grammar is the least such [I]. *)
Definition closed (e : env) (I : nat -> bytes -> Prop) : Prop :=
  forall i r w, r_reader (get_rule e i) = Some r -> lang I r w -> I i w.
Definition language (e : env) (r : reader) (w : bytes) : Prop := forall I, closed e I -> lang I r w.
