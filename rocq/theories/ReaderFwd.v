(** ReaderFwd.v - what a Read can do to position and state, for every reader.

    One induction over all readers with an abstract invariant [J]; used with
    different [J] for C37, C38, C51 and others. *)
From Verif Require Export ScannerSafe Reader.
From Coq Require Import Lia ZifyBool.

(** [p] holds for [r] and all readers inside it (rules are not followed). *)
Fixpoint rall (p : reader -> bool) (r : reader) : bool :=
  p r &&
  match r with
  | RAny rs | RSeq rs => forallb (rall p) rs
  | RSkipSeq sk rs => rall p sk && forallb (rall p) rs
  | RBody b t | RBodyTail b t => rall p b && rall p t
  | RAt s | RJanusBeg _ _ s | RMany s | RMap _ s | RNamed _ s | RNot s | ROpt s | RPast s
  | RTimes _ s | RTo s | RZom s | RPick _ _ s | RMonitor _ _ s | RRuleName s => rall p s
  | _ => true
  end.
(** [p] holds for the readers of all rules. *)
Definition eall (p : reader -> bool) (e : env) : Prop :=
  forall i r, r_reader (get_rule e i) = Some r -> rall p r = true.

Lemma rall_here p r : rall p r = true -> p r = true.
Proof. destruct r; cbn [rall]; rewrite andb_true_iff; tauto. Qed.
Lemma rall_impl (p q : reader -> bool) : (forall r, p r = true -> q r = true) ->
  forall r, rall p r = true -> rall q r = true.
Proof.
  intros H. fix IH 1. intros r.
  assert (L : forall rs, forallb (rall p) rs = true -> forallb (rall q) rs = true).
  { induction rs as [|x rs IHr]; [auto|]. cbn [forallb]. rewrite !andb_true_iff. intros [A B]. auto. }
  destruct r; cbn [rall]; rewrite !andb_true_iff; intros [A B]; (split; [apply H; exact A|]); auto.
  all: destruct B as [B C]; split; auto.
Qed.

Section Ind.
Context (P : reader -> Prop).
Context
  (Hlist : forall rs, Forall P rs -> P (RAny rs)) (Hseq : forall rs, Forall P rs -> P (RSeq rs))
  (Hskip : forall a rs, P a -> Forall P rs -> P (RSkipSeq a rs))
  (Hany_rune : forall x, P (RAnyRune x)) (Hat : forall a, P a -> P (RAt a)) (Hat_end : P RAtEnd)
  (Hbetween : forall x y, P (RBetween x y)) (Hbetween_any : forall x y, P (RBetweenAny x y))
  (Hbody : forall a b, P a -> P b -> P (RBody a b)) (Hbody_tail : forall a b, P a -> P b -> P (RBodyTail a b))
  (Hbool : forall i x, P (RBool i x)) (Hfold : forall x, P (RFold x)) (Hholey : forall x y z, P (RHoley x y z))
  (Hint : forall i x y, P (RInt i x y)) (Hjb : forall c x a, P a -> P (RJanusBeg c x a)) (Hje : forall c x, P (RJanusEnd c x))
  (Hinvalid : forall x, P (RInvalid x)) (Hlit : forall x, P (RLit x)) (Hmany : forall a, P a -> P (RMany a))
  (Hmap : forall i a, P a -> P (RMap i a)) (Hmatch : forall x f, P (RMatch x f)) (Hnamed : forall x a, P a -> P (RNamed x a))
  (Hnot : forall a, P a -> P (RNot a)) (Hopt : forall a, P a -> P (ROpt a)) (Hpast : forall a, P a -> P (RPast a))
  (Hrune : forall x, P (RRune x)) (Htimes : forall k a, P a -> P (RTimes k a)) (Hto : forall a, P a -> P (RTo a))
  (Huint : forall i x y, P (RUint i x y)) (Hwrap : forall x f, P (RWrap x f)) (Hzom : forall a, P a -> P (RZom a))
  (Hpick : forall x i a, P a -> P (RPick x i a)) (Hmon : forall x i a, P a -> P (RMonitor x i a))
  (Hrule : forall i, P (RRule i)) (Hrn : forall a, P a -> P (RRuleName a)) (Hgr : forall x y i, P (RGrammar x y i)).
Fixpoint reader_ind' (r : reader) : P r :=
  let go := fix go (l : list reader) : Forall P l :=
    match l with [] => Forall_nil P | x :: t => Forall_cons x (reader_ind' x) (go t) end in
  match r with
  | RAny rs => Hlist rs (go rs) | RSeq rs => Hseq rs (go rs) | RSkipSeq a rs => Hskip a rs (reader_ind' a) (go rs)
  | RAnyRune x => Hany_rune x | RAt a => Hat a (reader_ind' a) | RAtEnd => Hat_end
  | RBetween x y => Hbetween x y | RBetweenAny x y => Hbetween_any x y
  | RBody a b => Hbody a b (reader_ind' a) (reader_ind' b) | RBodyTail a b => Hbody_tail a b (reader_ind' a) (reader_ind' b)
  | RBool i x => Hbool i x | RFold x => Hfold x | RHoley x y z => Hholey x y z | RInt i x y => Hint i x y
  | RJanusBeg c x a => Hjb c x a (reader_ind' a) | RJanusEnd c x => Hje c x | RInvalid x => Hinvalid x | RLit x => Hlit x
  | RMany a => Hmany a (reader_ind' a) | RMap i a => Hmap i a (reader_ind' a) | RMatch x f => Hmatch x f
  | RNamed x a => Hnamed x a (reader_ind' a) | RNot a => Hnot a (reader_ind' a) | ROpt a => Hopt a (reader_ind' a)
  | RPast a => Hpast a (reader_ind' a) | RRune x => Hrune x | RTimes k a => Htimes k a (reader_ind' a)
  | RTo a => Hto a (reader_ind' a) | RUint i x y => Huint i x y | RWrap x f => Hwrap x f | RZom a => Hzom a (reader_ind' a)
  | RPick x i a => Hpick x i a (reader_ind' a) | RMonitor x i a => Hmon x i a (reader_ind' a) | RRule i => Hrule i
  | RRuleName a => Hrn a (reader_ind' a) | RGrammar x y i => Hgr x y i
  end.
End Ind.

(** [P] holds for [r] and all readers inside it. *)
Fixpoint rallP (P : reader -> Prop) (r : reader) : Prop :=
  P r /\
  match r with
  | RAny rs | RSeq rs => fold_right (fun x q => rallP P x /\ q) True rs
  | RSkipSeq sk rs => rallP P sk /\ fold_right (fun x q => rallP P x /\ q) True rs
  | RBody b t | RBodyTail b t => rallP P b /\ rallP P t
  | RAt s | RJanusBeg _ _ s | RMany s | RMap _ s | RNamed _ s | RNot s | ROpt s | RPast s
  | RTimes _ s | RTo s | RZom s | RPick _ _ s | RMonitor _ _ s | RRuleName s => rallP P s
  | _ => True
  end.
Definition eallP (P : reader -> Prop) (e : env) : Prop :=
  forall i r, r_reader (get_rule e i) = Some r -> rallP P r.

Lemma rallP_rall p r : rall p r = true <-> rallP (fun r => p r = true) r.
Proof.
  revert r. refine (reader_ind' _ _ _ _ _ _ _ _ _ _ _ _ _ _ _ _ _ _ _ _ _ _ _ _ _ _ _ _ _ _ _ _ _ _ _ _ _); intros;
    cbn [rall rallP]; rewrite ?andb_true_iff; try tauto.
  all: assert (X : forallb (rall p) rs = true <-> fold_right (fun x q => rallP (fun r => p r = true) x /\ q) True rs)
    by (match goal with H : Forall _ _ |- _ => induction H; cbn; [tauto|rewrite andb_true_iff; tauto] end); tauto.
Qed.
Lemma rallP_here P r : rallP P r -> P r.
Proof. destruct r; cbn; tauto. Qed.
Lemma rallP_impl (P Q : reader -> Prop) : (forall r, P r -> Q r) -> forall r, rallP P r -> rallP Q r.
Proof.
  intros H. refine (reader_ind' _ _ _ _ _ _ _ _ _ _ _ _ _ _ _ _ _ _ _ _ _ _ _ _ _ _ _ _ _ _ _ _ _ _ _ _ _); intros;
    cbn [rallP] in *; repeat match goal with X : _ /\ _ |- _ => destruct X end;
    repeat match goal with |- _ /\ _ => split end; auto.
  all: match goal with X : Forall _ _, Y : fold_right _ _ _ |- _ => revert Y; clear - X; induction X; cbn; [auto|]; intros [Y1 Y2]; split; auto end.
Qed.

(* ------------------------------------------------------------- primitives *)

Lemma moveto_sc p s : sc (moveto p s) = mkSc (full (sc s)) p (trk (sc s)).
Proof. reflexivity. Qed.

Lemma decode_le s : (snd (decode_rune s) <= length s)%nat.
Proof.
  destruct s as [|b t]; [cbn; lia|].
  destruct (decode_cases (b :: t) ltac:(discriminate)) as [(r & u & Hr & E & D)|[D B]]; rewrite D; cbn [snd].
  - rewrite E, app_length. lia.
  - cbn. lia.
Qed.

(** Answers no and changes nothing, or moves forward inside the text. *)
Definition bprim (pn : bool) (m : M bool) : Prop := forall s, in_text s ->
  m s = Ok (false, s) \/
  (exists p, pos (sc s) <= p <= slen (full (sc s)) /\ m s = Ok (true, moveto p s)) \/
  (pn = true /\ m s = Panic).

Lemma in_text_move s p : in_text s -> 0 <= p <= slen (full (sc s)) -> in_text (moveto p s).
Proof. intros [A B] H. split; auto. Qed.

Lemma move_tail s a b d : at_split s a b -> 0 <= d <= slen b ->
  move d s = Ok (true, moveto (pos (sc s) + d) s) /\ pos (sc s) <= pos (sc s) + d <= slen (full (sc s)).
Proof.
  intros H D. pose proof (split_bounds _ _ _ H) as B. split; [|lia].
  apply move_ok; [eapply in_text_split; eauto|lia|lia].
Qed.

Ltac tail_split s I a b H := let J := fresh in pose proof I as J; apply at_split_in_text in J as (a & b & H); tail_of H.

Lemma bprim_if_str x : bprim false (if_str x).
Proof.
  intros s I. unfold if_str. tail_split s I a b H. destruct (has_prefix b x) eqn:E; [|left; reflexivity].
  right; left. apply has_prefix_iff in E as [t ->].
  destruct (move_tail s a (x ++ t) (slen x) H) as [E1 E2]. { rewrite slen_app. pose proof (slen_nonneg x). pose proof (slen_nonneg t). lia. }
  eauto.
Qed.
Lemma bprim_or pn m (f : bool -> M bool) : bprim pn m -> bprim pn (f false) -> f true = ret true -> bprim pn (bind m f).
Proof.
  intros A B C s I. unfold bind. destruct (A s I) as [E|[(p & P & E)|[P E]]]; rewrite E.
  - apply B; auto.
  - right; left. exists p. rewrite C. auto.
  - auto.
Qed.
Lemma bprim_if_any x : bprim false (if_any x).
Proof.
  induction x; cbn [if_any]; [intros s I; left; reflexivity|].
  apply bprim_or; auto. apply bprim_if_str.
Qed.
Lemma bprim_if_rune r : bprim false (if_rune r).
Proof.
  intros s I. unfold if_rune. tail_split s I a b H. pose proof (decode_le b) as D.
  destruct (decode_rune b) as [v i]. cbn [snd] in D. destruct (v =? r); cbn [negb]; [|left; reflexivity].
  right; left. destruct (move_tail s a b (Z.of_nat i) H) as [E1 E2]; [unfold slen; lia|]. eauto.
Qed.
Lemma bprim_if_any_rune x : bprim false (if_any_rune x).
Proof.
  unfold if_any_rune. induction (runes x) as [|r rs IH]; cbn [if_any_rune_loop]; [intros s I; left; reflexivity|].
  apply bprim_or; auto. apply bprim_if_rune.
Qed.
Lemma bprim_if_between mn mx : bprim false (if_between mn mx).
Proof.
  intros s I. unfold if_between. tail_split s I a b H. destruct (slen b =? 0); [left; reflexivity|].
  pose proof (decode_le b) as D. destruct (decode_rune b) as [v i]. cbn [snd] in D.
  destruct (in_range mn v mx); cbn [negb]; [|left; reflexivity].
  right; left. destruct (move_tail s a b (Z.of_nat i) H) as [E1 E2]; [unfold slen; lia|]. eauto.
Qed.
Lemma bprim_if_match f : bprim false (if_match f).
Proof.
  intros s I. unfold if_match. tail_split s I a b H.
  pose proof (decode_le b) as D. destruct (decode_rune b) as [v i]. cbn [snd] in D.
  destruct (negb (Nat.eqb i 0) && f v); [|left; reflexivity].
  right; left. destruct (move_tail s a b (Z.of_nat i) H) as [E1 E2]; [unfold slen; lia|]. eauto.
Qed.
Lemma bprim_if_fold {L : GoLib} x : bprim true (if_fold x).
Proof.
  intros s I. unfold if_fold. tail_split s I a b H. destruct (slen b <? slen x) eqn:E; [right; right; auto|].
  destruct (equal_fold _ _); [|left; reflexivity].
  right; left. destruct (move_tail s a b (slen x) H) as [E1 E2]; [pose proof (slen_nonneg x); lia|]. eauto.
Qed.
Lemma bprim_weaken m pn : bprim false m -> bprim pn m.
Proof. intros H s I. destruct (H s I) as [E|[E|[E _]]]; auto. discriminate. Qed.

Lemma rune_len_scalar r : is_scalar r -> rune_len r = slen (utf8 r).
Proof.
  intros H. unfold slen. rewrite utf8_length by auto. unfold is_scalar in H. unfold rune_len, MaxRune in *.
  repeat match goal with |- context [if ?c then _ else _] => destruct c eqn:? end; lia.
Qed.
(** MoveRunes(1): over one chunk, three bytes over an ill-formed byte. *)
Lemma move_runes1_strict s : in_text s -> move_runes 1 s = Ok (false, s) \/
  exists p, pos (sc s) < p <= slen (full (sc s)) /\ move_runes 1 s = Ok (true, moveto p s).
Proof.
  intros I. unfold move_runes. cbn [Z.ltb Z.compare]. tail_split s I a b H.
  destruct (move_runes_fwd 1 (range_str b) 0) as [d|] eqn:E; [|left; reflexivity].
  assert (1 <= d < 2 ^ 62).
  { destruct b as [|x b]; [discriminate|].
    destruct (chunked_exists (x :: b)) as [l C]. rewrite (range_str_chunked _ _ C) in E.
    destruct l as [|[r c] l]; [apply chunked_nil_r in C; discriminate|].
    apply chunked_cons_inv in C as (t & _ & _ & _ & N & C). cbn [indexed move_runes_fwd] in E.
    injection E as <-. destruct C as [[Hr _]|[-> _]]; [|cbn; lia].
    rewrite rune_len_scalar by auto. unfold slen. pose proof (utf8_length_pos r). lia. }
  unfold move. pose proof (split_bounds _ _ _ H) as B. destruct I as [I1 I2].
  match goal with |- context [if (?a || ?b)%bool then _ else _] => destruct (a || b)%bool eqn:E2 end; [left; reflexivity|].
  right. eexists. split; [|reflexivity].
  destruct (Z_lt_ge_dec (pos (sc s) + d) (2 ^ 63)); [rewrite wrap64_id in * by lia; lia|].
  exfalso. unfold wrap64 in E2. lia.
Qed.
Lemma bprim_move_runes1 : bprim false (move_runes 1).
Proof. intros s I. destruct (move_runes1_strict s I) as [E|(p & P & E)]; [auto|]. right; left. exists p. split; [lia|auto]. Qed.

(* --------------------------------------------------- the invariant logic *)

Lemma all_in (P : reader -> Prop) rs : fold_right (fun x q => rallP P x /\ q) True rs -> forall x, In x rs -> rallP P x.
Proof. induction rs as [|y rs IH]; cbn; [tauto|]. intros [A B] x [<-|X]; auto. Qed.

Section Fwd.
Context {L : GoLib} (e : env) (p : reader -> Prop) (pn : bool) (J : Z -> st -> Prop).

(** [a0] is the position where the whole run started, [a] a later bound below which
    the scanner does not go again. *)
Definition inv (t : bytes) (k : option nat) (a0 a : Z) (s : st) : Prop :=
  in_text s /\ full (sc s) = t /\ trk (sc s) = k /\ a0 <= a <= pos (sc s) /\ J a0 s.
Definition fw {A} (t : bytes) (k : option nat) (a0 a : Z) (m : M A) : Prop := forall s, inv t k a0 a s ->
  match m s with Ok (_, s') => inv t k a0 a s' | Panic => pn = true | Fuel => True end.

Context
  (Jmove : forall a s q, in_text s -> a <= pos (sc s) -> J a s -> a <= q <= slen (full (sc s)) -> J a (moveto q s))
  (Jother : forall a s h, h_baskets h = h_baskets (hp s) -> h_events h = h_events (hp s) -> J a s -> J a (with_heap h s))
  (Jenter : forall a s, in_text s -> a <= pos (sc s) -> J a s -> J (pos (sc s)) s)
  (Jmap : forall id sub, p (RMap id sub) -> forall a m s, in_text s -> a <= m <= pos (sc s) -> 0 <= m -> J a s -> J m s ->
     (exists n s0, read n e sub s0 = Ok (None, s) /\ in_text s0 /\ full (sc s0) = full (sc s) /\ pos (sc s0) = m) ->
     J a (with_heap (add_event id (mkTok m (pos (sc s))) (hp s)) s))
  (Jpick : forall info b sub, p (RPick info b sub) -> forall a m s, in_text s -> a <= m <= pos (sc s) -> 0 <= m -> J a s -> J m s ->
     (exists n s0, read n e sub s0 = Ok (None, s) /\ in_text s0 /\ full (sc s0) = full (sc s) /\ pos (sc s0) = m) ->
     J a (with_heap (basket_add b (mkSeg info (mkTok m (pos (sc s)))) (hp s)) s))
  (Pwrap : forall w f, ~ p (RWrap w f))
  (Pfold : forall x, p (RFold x) -> pn = true)
  (Prule : forall i, p (RRule i) -> r_reader (get_rule e i) = None -> pn = true)
  (Pgram : forall w x i, p (RGrammar w x i) -> r_reader (get_rule e i) = None -> pn = true)
  (Penv : eallP p e)
  (Jsub : forall n b t, p (RBody b t) \/ p (RBodyTail b t) -> rallP p b ->
     (forall t k a0 a r, rallP p r -> fw t k a0 a (read n e r)) ->
     forall a0 str s, slen str < 2 ^ 63 -> J a0 s ->
     match read n e b (mkSt (new_scanner str) (hp s)) with
     | Ok (_, s') => in_text s' /\ trk (sc s') = None /\ J a0 (mkSt (sc s) (hp s'))
     | Panic => pn = true | Fuel => True end).

Section Rules.
Context (t : bytes) (k : option nat) (a0 a : Z).

Lemma fw_ret {A} (x : A) : fw t k a0 a (ret x).
Proof. intros s H. exact H. Qed.
Lemma fw_fuel {A} : fw t k a0 a (@out_of_fuel A).
Proof. intros s H. exact I. Qed.
Lemma fw_bind {A B} (m : M A) (f : A -> M B) : fw t k a0 a m -> (forall x, fw t k a0 a (f x)) -> fw t k a0 a (bind m f).
Proof.
  intros A1 B1 s H. unfold bind. specialize (A1 s H). destruct (m s) as [[x s']| |]; auto. apply B1; auto.
Qed.
Lemma fw_mark {B} (f : Z -> M B) :
  (forall m, a <= m <= slen t -> 0 <= m -> a0 <= m -> fw t k a0 m (f m)) -> fw t k a0 a (bind mark f).
Proof.
  intros H s I. unfold bind, mark, gets. pose proof I as (I1 & I2 & I3 & I4 & I5).
  assert (X : fw t k a0 (pos (sc s)) (f (pos (sc s)))).
  { destruct I1. subst t. apply H; lia. }
  assert (I' : inv t k a0 (pos (sc s)) s). { split; auto. split; auto. split; auto. split; auto. lia. }
  specialize (X s I'). destruct (f _ s) as [[x s']| |]; auto.
  destruct X as (X1 & X2 & X3 & X4 & X5). split; auto. split; auto. split; auto. split; auto. lia.
Qed.
Lemma fw_marker m : a <= m <= slen t -> 0 <= m -> fw t k a0 a (to_marker m).
Proof.
  intros H H0 s (I1 & I2 & I3 & I4 & I5). rewrite to_marker_nonneg by auto.
  split; [apply in_text_move; auto; subst t; lia|]. split; auto. split; auto. split; [cbn; lia|].
  apply Jmove; auto; [lia|subst t; lia].
Qed.
Lemma fw_bprim m : bprim pn m -> fw t k a0 a m.
Proof.
  intros H s I. pose proof I as (I1 & I2 & I3 & I4 & I5). destruct (H s I1) as [E|[(q & Q & E)|[P E]]]; rewrite E; auto.
  split; [apply in_text_move; auto; destruct I1; lia|]. split; auto. split; auto. split; [cbn; lia|].
  apply Jmove; auto; lia.
Qed.
Lemma fw_if {A} (c : bool) (m1 m2 : M A) : fw t k a0 a m1 -> fw t k a0 a m2 -> fw t k a0 a (if c then m1 else m2).
Proof. destruct c; auto. Qed.
Lemma fw_gets {A} (f : st -> A) : fw t k a0 a (gets f).
Proof. intros s I. exact I. Qed.
Lemma fw_tail {B} (f : bytes -> M B) :
  (forall s u b, inv t k a0 a s -> at_split s u b ->
     match f b s with Ok (_, s') => inv t k a0 a s' | Panic => pn = true | Fuel => True end) ->
  fw t k a0 a (bind s_tail f).
Proof.
  intros H s I. pose proof I as (I1 & I2 & I3 & I4 & I5). tail_split s I1 u b X. apply (H s u b); auto.
Qed.
Lemma fw_other (f : heap -> heap) : (forall h, h_baskets (f h) = h_baskets h /\ h_events (f h) = h_events h) ->
  fw t k a0 a (modh f).
Proof.
  intros H s (I1 & I2 & I3 & I4 & I5). unfold modh, modify. destruct (H (hp s)).
  split; [exact I1|]. split; [exact I2|]. split; [exact I3|]. split; [exact I4|]. apply Jother; auto.
Qed.
Lemma fw_error_for w : fw t k a0 a (error_for w).
Proof. intros s I. exact I. Qed.
Lemma fw_error_if_false ok w : fw t k a0 a (error_if_false ok w).
Proof. intros s I. destruct ok; exact I. Qed.
Lemma fw_token {B} m m' (f : bytes -> M B) : 0 <= m <= m' -> m' <= slen t ->
  (forall str, slen str < 2 ^ 63 -> fw t k a0 a (f str)) -> fw t k a0 a (bind (get_tok (make_token m m')) f).
Proof.
  intros H1 H2 H s I. pose proof I as (I1 & I2 & I3 & I4 & I5). unfold bind, get_tok, make_token.
  replace (m' <? m) with false by lia. cbn [t_from t_to].
  replace ((0 <=? m) && (m <=? m') && (m' <=? slen (full (sc s)))) with true by (subst t; lia).
  cbv iota beta. apply H; auto. destruct I1 as [_ I1]. rewrite slen_slice; subst t; lia.
Qed.
End Rules.


Lemma fw_weaken_a {A} t k a0 a a' (m : M A) : a0 <= a <= a' -> fw t k a0 a m -> (forall b, fw t k a0 b m) -> fw t k a0 a' m.
Proof. auto. Qed.

Ltac fw1 := first
  [ apply fw_ret | apply fw_fuel | apply fw_gets | apply fw_error_for | apply fw_error_if_false
  | apply fw_if | (apply fw_marker; [lia|lia])
  | (apply fw_mark; intros) | (apply fw_bind; [|intros]) | (apply fw_other; intros; split; reflexivity) ].

Lemma fw_any rds t k a0 : (forall rd a, In rd rds -> fw t k a0 a rd) ->
  forall a m errs, a <= m <= slen t -> 0 <= m -> fw t k a0 a (any_loop rds m errs).
Proof.
  induction rds as [|rd rds IH]; intros H a m errs Hm H0; cbn [any_loop].
  - repeat fw1.
  - apply fw_bind; [apply H; left; auto|]. intros [x|]; [|fw1]. apply IH; auto. intros; apply H; right; auto.
Qed.
Lemma fw_seq rds t k a0 : (forall rd a, In rd rds -> fw t k a0 a rd) ->
  forall a m, a <= m <= slen t -> 0 <= m -> fw t k a0 a (seq_loop rds m).
Proof.
  induction rds as [|rd rds IH]; intros H a m Hm H0; cbn [seq_loop].
  - repeat fw1.
  - apply fw_bind; [apply H; left; auto|]. intros [x|]; [repeat fw1|]. apply IH; auto. intros; apply H; right; auto.
Qed.
Lemma fw_skip sk rds t k a0 a : fw t k a0 a sk -> (forall rd, In rd rds -> fw t k a0 a rd) ->
  forall x, fw t k a0 a (skip_loop sk rds x).
Proof.
  intros Hs. induction rds as [|rd rds IH]; intros H x; cbn [skip_loop]; [fw1|].
  destruct x; [fw1|]. apply fw_bind; [apply H; left; auto|]. intros [x|].
  - apply IH. intros; apply H; right; auto.
  - apply fw_bind; auto. intros x. apply IH. intros; apply H; right; auto.
Qed.
Lemma fw_rep n rd t k a0 a : fw t k a0 a rd -> fw t k a0 a (rep_loop n rd).
Proof.
  intros H. induction n as [|n IH]; cbn [rep_loop]; [fw1|]. apply fw_bind; auto. intros [x|]; auto. fw1.
Qed.
Lemma fw_times n rd t k a0 a : fw t k a0 a rd -> fw t k a0 a (times_loop n rd).
Proof.
  intros H. induction n as [|n IH]; cbn [times_loop]; [fw1|]. apply fw_bind; auto. intros [x|]; auto. fw1.
Qed.
Lemma fw_runes1 t k a0 a : fw t k a0 a (move_runes 1).
Proof. apply fw_bprim. apply bprim_weaken. apply bprim_move_runes1. Qed.
Lemma fw_past n rd t k a0 a : fw t k a0 a rd -> fw t k a0 a (past_loop n rd).
Proof.
  intros H. induction n as [|n IH]; cbn [past_loop]; [fw1|]. apply fw_bind; [apply fw_gets|]. intros fin.
  apply fw_if; [fw1|]. apply fw_bind; auto. intros [x|]; [|fw1]. apply fw_bind; auto. apply fw_runes1.
Qed.
Lemma fw_to n rd t k a0 : (forall a, fw t k a0 a rd) -> forall a, fw t k a0 a (to_loop n rd).
Proof.
  intros H. induction n as [|n IH]; intros a; cbn [to_loop]; [fw1|]. apply fw_mark. intros m Hm H0 H1.
  apply fw_bind; auto. intros [x|]; [|repeat fw1]. apply fw_bind; [apply fw_runes1|]. intros ok. apply fw_if; [|fw1]. apply IH.
Qed.
Lemma fw_bany l t k a0 a : fw t k a0 a (between_any_loop l).
Proof.
  induction l as [|[mn mx] l IH]; cbn [between_any_loop]; [fw1|]. apply fw_bind; [apply fw_bprim, bprim_weaken, bprim_if_between|].
  intros ok. apply fw_if; auto. fw1.
Qed.

Definition sub_ok (b : M (option err)) : Prop := forall a0 str s, slen str < 2 ^ 63 -> J a0 s ->
     match b (mkSt (new_scanner str) (hp s)) with
     | Ok (_, s') => in_text s' /\ trk (sc s') = None /\ J a0 (mkSt (sc s) (hp s'))
     | Panic => pn = true | Fuel => True end.

Lemma fw_on_sub b str t k a0 a : slen str < 2 ^ 63 -> sub_ok b -> fw t k a0 a (on_sub str b).
Proof.
  intros Hs Hb s (I1 & I2 & I3 & I4 & I5). unfold on_sub, use, bind at 1 2 3, mark, gets.
  specialize (Hb a0 str s Hs I5). destruct (b _) as [[x s']| |]; auto. destruct Hb as (B1 & B2 & B3).
  assert (X : J a0 (mkSt (sc s) (hp s'))) by exact B3.
  destruct x as [y|].
  - unfold bind. rewrite to_marker_nonneg by (cbn; lia). cbn. unfold track. rewrite B2.
    split; [exact I1|]. split; [exact I2|]. split; [exact I3|]. split; [exact I4|]. exact X.
  - cbn. split; [exact I1|]. split; [exact I2|]. split; [exact I3|]. split; [exact I4|]. exact X.
Qed.
Lemma fw_body n m body tl back t k a0 : sub_ok body -> (forall a, fw t k a0 a tl) ->
  forall a, 0 <= m <= a -> fw t k a0 a (body_loop n m body tl back).
Proof.
  intros Hb H. induction n as [|n IH]; intros a Ha; cbn [body_loop]; [fw1|].
  apply fw_bind; [apply fw_gets|]. intros fin. apply fw_if; [fw1|].
  apply fw_mark. intros u Hu H0 H1. apply fw_bind; auto. intros [x|].
  - apply fw_bind; [apply fw_runes1|]. intros _. apply IH. lia.
  - apply fw_token; [lia|lia|]. intros str Hs. apply fw_bind; [apply fw_on_sub; auto|].
    intros [[x|] fin']; cbn [fst snd]; [fw1|]. repeat fw1.
Qed.

Lemma range_bounds s i r : In (i, r) (range_str s) -> 0 <= i < slen s.
Proof.
  destruct (chunked_exists s) as [l C]. rewrite (range_str_chunked _ _ C).
  assert (G : forall l s, chunked s l -> forall j, In (i, r) (indexed j l) -> j <= i < j + slen s).
  { clear. induction l as [|[v c] l IH]; intros s C j; cbn [indexed In]; [tauto|].
    apply chunked_cons_inv in C as (t & -> & C & _ & N & _). rewrite slen_app.
    assert (0 < slen c) by (destruct c; [congruence|unfold slen; cbn; lia]). pose proof (slen_nonneg t).
    intros [E|E]; [injection E as -> ->; lia|]. apply (IH _ C) in E. lia. }
  intros H. apply (G _ _ C) in H. lia.
Qed.
Lemma int_loop_in cf base mn mx neg l : forall i n v n', read_int_loop cf base mn mx neg l i n = (v, n') ->
  n' = n \/ exists r, In (n', r) l.
Proof.
  induction l as [|[j r] l IH]; intros i n v n'; cbn [read_int_loop]; [intros E; injection E as <- <-; auto|].
  destruct (cf r =? -1); [intros E; injection E as <- <-; auto|].
  destruct neg; match goal with |- context [if ?c then _ else _] => destruct c end; intros E;
    try (injection E as <- <-; left; reflexivity);
    (apply IH in E as [->|[r' E]]; right; [exists r; left; reflexivity|exists r'; right; exact E]).
Qed.
Lemma uint_loop_in cf base mx l : forall i n v n', read_uint_loop cf base mx l i n = (v, n') ->
  n' = n \/ exists r, In (n', r) l.
Proof.
  induction l as [|[j r] l IH]; intros i n v n'; cbn [read_uint_loop]; [intros E; injection E as <- <-; auto|].
  destruct (cf r =? -1); [intros E; injection E as <- <-; auto|].
  match goal with |- context [if ?c then _ else _] => destruct c end; intros E;
    try (injection E as <- <-; left; reflexivity);
    (apply IH in E as [->|[r' E]]; right; [exists r; left; reflexivity|exists r'; right; exact E]).
Qed.
Lemma fw_move_tail s u b d t k a0 a : inv t k a0 a s -> at_split s u b -> 0 <= d <= slen b ->
  exists s', move d s = Ok (true, s') /\ inv t k a0 a s'.
Proof.
  intros (I1 & I2 & I3 & I4 & I5) H D. destruct (move_tail s u b d H D) as [E1 E2]. rewrite E1.
  eexists. split; [reflexivity|]. split; [apply in_text_move; auto; destruct I1; lia|]. split; auto. split; auto.
  split; [cbn; lia|]. apply Jmove; auto; lia.
Qed.
Lemma fw_read_int base bits t k a0 a : fw t k a0 a (read_int base bits).
Proof.
  unfold read_int. destruct (char_func base); [|fw1]. destruct (int_bounds bits) as [[mn mx]|]; [|fw1].
  apply fw_mark. intros m Hm H0 H1. apply fw_bind; [apply fw_bprim, bprim_weaken, bprim_if_rune|]. intros neg.
  apply fw_bind; [apply fw_if; [fw1|apply fw_bprim, bprim_weaken, bprim_if_rune]|]. intros _.
  apply fw_tail. intros s u b I H. destruct (read_int_loop _ _ _ _ _ _ _ _) as [v n'] eqn:E.
  apply int_loop_in in E. destruct (n' =? -1) eqn:E1.
  - refine ((_ : fw t k a0 m _) s I). repeat fw1.
  - destruct E as [->|[r E]]; [discriminate|]. apply range_bounds in E.
    destruct (fw_move_tail s u b (n' + 1) t k a0 m I H ltac:(lia)) as (s' & E2 & E3).
    unfold bind. rewrite E2. exact E3.
Qed.
Lemma fw_read_uint base bits t k a0 a : fw t k a0 a (read_uint base bits).
Proof.
  unfold read_uint. destruct (char_func base); [|fw1]. destruct (uint_max bits) as [mx|]; [|fw1].
  apply fw_tail. intros s u b I H. destruct (read_uint_loop _ _ _ _ _ _) as [v n'] eqn:E.
  apply uint_loop_in in E. destruct (n' =? -1) eqn:E1.
  - exact I.
  - destruct E as [->|[r E]]; [discriminate|]. apply range_bounds in E.
    destruct (fw_move_tail s u b (n' + 1) t k a0 a I H ltac:(lia)) as (s' & E2 & E3).
    unfold bind. rewrite E2. exact E3.
Qed.
Lemma fw_read_bool f t k a0 a : fw t k a0 a (read_bool f).
Proof.
  unfold read_bool, read_bool_strs.
  repeat first [ apply fw_bprim; apply bprim_weaken; first [apply bprim_if_any | apply bprim_if_str] | fw1 ].
Qed.

Lemma tokenize_none rd s tk s' : tokenize_use rd s = Ok ((tk, None), s') -> rd s = Ok (None, s').
Proof.
  unfold tokenize_use, bind, mark, gets. destruct (rd s) as [[[x|] s1]| |]; try discriminate.
  - destruct (to_marker _ s1) as [[u s2]| |]; discriminate.
  - intros H. injection H as _ ->. auto.
Qed.
(** tokenize_use, with what the token is. *)
Lemma tokenize_fw rd t k a0 a s : (forall a0 a, fw t k a0 a rd) -> inv t k a0 a s ->
  match tokenize_use rd s with
  | Ok ((tk, x), s') => inv t k a0 a s' /\
      (x = None -> tk = mkTok (pos (sc s)) (pos (sc s')) /\ pos (sc s) <= pos (sc s') /\ J (pos (sc s)) s')
  | Panic => pn = true | Fuel => True end.
Proof.
  intros H I. pose proof I as (I1 & I2 & I3 & I4 & I5). unfold tokenize_use, bind at 1 2, mark, gets.
  pose proof (H a0 a s I) as A.
  assert (I' : inv t k (pos (sc s)) (pos (sc s)) s).
  { split; auto. split; auto. split; auto. split; [lia|]. apply (Jenter a0); auto. lia. }
  pose proof (H _ _ s I') as B. destruct (rd s) as [[x s']| |]; auto. destruct x as [y|].
  - pose proof (fw_marker t k a0 a (pos (sc s))) as C. unfold bind.
    destruct I1 as [P1 P2]. subst t. specialize (C ltac:(lia) ltac:(lia) s' A).
    rewrite to_marker_nonneg in C |- * by lia. split; [exact C|discriminate].
  - cbn. split; [exact A|]. intros _. destruct B as (B1 & B2 & B3 & B4 & B5).
    unfold make_token. replace (pos (sc s') <? pos (sc s)) with false by lia. split; auto. split; [lia|auto].
Qed.

Theorem fw_readP n : forall t k a0 a r, rallP p r -> fw t k a0 a (read n e r).
Proof.
  induction n as [|n IH]; intros t k a0 a r Hp; [apply fw_fuel|].
  assert (IL : forall rs t k a0 a rd, fold_right (fun x q => rallP p x /\ q) True rs -> In rd (map (read n e) rs) -> fw t k a0 a rd).
  { intros rs t' k' a0' a' rd F Hin. apply in_map_iff in Hin as (x & <- & X). apply IH.
    apply (all_in _ _ F); auto. }
  pose proof (rallP_here _ _ Hp) as Ph.
  destruct r; cbn [read]; cbn [rallP] in Hp; destruct Hp as [_ Hp];
    try match type of Hp with _ /\ _ => destruct Hp as [Hp Hp2] end;
    try solve [ repeat first [ apply IH; auto; fail | apply fw_bprim; apply bprim_weaken; first [apply bprim_if_str|apply bprim_if_any_rune|apply bprim_if_between|apply bprim_if_match|apply bprim_if_rune]
       | apply fw_bany | apply fw_read_bool | apply fw_read_int | apply fw_read_uint | apply fw_rep | apply fw_times | apply fw_past | apply fw_runes1 | fw1 ] ].
  - (* Any *) apply fw_mark. intros m Hm H0 H1. apply fw_any; try lia. intros rd b. apply IL; auto.
  - (* Body *) apply fw_mark. intros m Hm H0 H1. apply fw_bind.
    + apply fw_body; [|intros; apply IH; auto|lia]. intros b str s. apply (Jsub n r1 r2); auto.
    + intros ok. repeat fw1.
  - (* BodyTail *) apply fw_mark. intros m Hm H0 H1. apply fw_bind.
    + apply fw_body; [|intros; apply IH; auto|lia]. intros b str s. apply (Jsub n r1 r2); auto.
    + intros ok. repeat fw1.
  - (* Fold *) apply fw_bind; [apply fw_bprim|intros; fw1]. rewrite (Pfold _ Ph). apply bprim_if_fold.
  - (* Holey *) apply fw_tail. intros s u b I H. pose proof (decode_le b) as D.
    destruct (decode_rune b) as [v i]. cbn [snd] in D.
    destruct (_ && _).
    + destruct (fw_move_tail s u b (Z.of_nat i) t k a0 a I H ltac:(unfold slen; lia)) as (s' & E2 & E3).
      unfold bind. rewrite E2. exact E3.
    + exact I.
  - (* JanusBeg *) intros s I. pose proof (tokenize_fw (read n e r) t k a0 a s ltac:(intros; apply IH; auto) I) as X.
    unfold bind at 1. destruct (tokenize_use _ s) as [[[tk x] s']| |]; auto. destruct X as [X1 X2]. cbn [fst snd].
    destruct x as [y|]; [exact X1|]. destruct (X2 eq_refl) as (-> & X3 & X4).
    pose proof I as ([I1 _] & I2 & _). pose proof X1 as ([Y1 _] & Y2 & _).
    replace (mkTok (pos (sc s)) (pos (sc s'))) with (make_token (pos (sc s)) (pos (sc s')))
      by (unfold make_token; replace (pos (sc s') <? pos (sc s)) with false by lia; auto).
    refine ((_ : fw t k a0 a _) s' X1). apply fw_token; [lia|rewrite <- Y2; lia|]. intros str _. repeat fw1.
  - (* JanusEnd *) apply fw_bind; [fw1|]. intros str. apply fw_bind; [apply fw_bprim, bprim_weaken, bprim_if_str|].
    intros ok. apply fw_bind; [fw1|]. intros [x|]; repeat fw1.
  - (* Map *) intros s I. pose proof (tokenize_fw (read n e r) t k a0 a s ltac:(intros; apply IH; auto) I) as X.
    unfold bind at 1. destruct (tokenize_use _ s) as [[[tk x] s']| |] eqn:T; auto. destruct X as [X1 X2]. cbn [fst snd].
    destruct x as [y|]; [exact X1|]. destruct (X2 eq_refl) as (-> & X3 & X4).
    pose proof X1 as (Y1 & Y2 & Y3 & Y4 & Y5). pose proof I as ([I1 Il] & I2 & _ & I4 & _).
    assert (Tr : exists n s0, read n e r s0 = Ok (None, s') /\ in_text s0 /\ full (sc s0) = full (sc s') /\ pos (sc s0) = pos (sc s)).
    { exists n, s. split; [eapply tokenize_none; eauto|]. split; [split; auto|]. split; [congruence|auto]. } cbn.
    split; [exact Y1|]. split; [exact Y2|]. split; [exact Y3|]. split; [exact Y4|].
    eapply Jmap; eauto; lia.
  - (* Not *) apply fw_mark. intros m Hm H0 H1. apply fw_bind; [apply IH; auto|]. intros x. apply fw_bind; [fw1|].
    intros _. destruct x; [|fw1]. apply fw_bind; [apply fw_runes1|intros; fw1].
  - (* Seq *) apply fw_mark. intros m Hm H0 H1. apply fw_seq; try lia. intros rd b. apply IL; auto.
  - (* SkipSeq *) apply fw_mark. intros m Hm H0 H1. apply fw_bind; [apply IH; auto|]. intros x.
    apply fw_bind; [apply fw_skip; [apply IH; auto|intros rd; apply IL; auto]|]. intros [y|]; repeat fw1.
  - (* To *) apply fw_mark. intros m Hm H0 H1. apply fw_bind; [apply fw_to; intros; apply IH; auto|]. intros ok. repeat fw1.
  - (* Wrap *) destruct (Pwrap _ _ Ph).
  - (* Pick *) intros s I. pose proof (tokenize_fw (read n e r) t k a0 a s ltac:(intros; apply IH; auto) I) as X.
    unfold bind at 1. destruct (tokenize_use _ s) as [[[tk x] s']| |] eqn:T; auto. destruct X as [X1 X2]. cbn [fst snd].
    destruct x as [y|]; [exact X1|]. destruct (X2 eq_refl) as (-> & X3 & X4).
    pose proof X1 as (Y1 & Y2 & Y3 & Y4 & Y5). pose proof I as ([I1 Il] & I2 & _ & I4 & _).
    assert (Tr : exists n s0, read n e r s0 = Ok (None, s') /\ in_text s0 /\ full (sc s0) = full (sc s') /\ pos (sc s0) = pos (sc s)).
    { exists n, s. split; [eapply tokenize_none; eauto|]. split; [split; auto|]. split; [congruence|auto]. } cbn.
    split; [exact Y1|]. split; [exact Y2|]. split; [exact Y3|]. split; [exact Y4|].
    eapply Jpick; eauto; lia.
  - (* Rule *) destruct (r_reader (get_rule e i)) as [sub|] eqn:E; [apply IH; eapply Penv; eauto|].
    intros s I. apply (Prule i); auto.
  - (* Grammar *) destruct (r_reader (get_rule e i)) as [sub|] eqn:E; [|intros s I; apply (Pgram _ _ _ Ph); auto].
    apply fw_bind; [apply IH; eapply Penv; eauto|]. intros [x|]; fw1.
Qed.

End Fwd.

(** The same for a test of readers. *)
Lemma eallP_eall p e : eall p e <-> eallP (fun r => p r = true) e.
Proof. split; intros H i r E; apply rallP_rall; eapply H; eauto. Qed.
