(** WatchFwd.v - what readers tell a Tracker: markers between the beginning of the Read and the end of the text. *)
From Verif Require Import ReaderFwd WatchFacts.
From Verif Require Watch.
From Coq Require Import Lia ZifyBool.
Import Watch (wst, mkW, w_st, w_x).

(** A Tracker that writes down what it is told *)
Definition record (p : Z) (hx : heap * list Z) : heap * list Z := (fst hx, snd hx ++ [p]).

Lemma range_in s i r : In (i, r) (range_str s) -> 0 <= i < slen s.
Proof.
  destruct (chunked_exists s) as [l C]. rewrite (range_str_chunked _ _ C).
  assert (G : forall l s, chunked s l -> forall j, In (i, r) (indexed j l) -> j <= i < j + slen s).
  { clear. induction l as [|[v c] l IH]; intros s C j; cbn [indexed In]; [tauto|].
    apply chunked_cons_inv in C as (t & -> & C & _ & N & _). rewrite slen_app.
    assert (0 < slen c) by (destruct c; [congruence|unfold slen; cbn; lia]). pose proof (slen_nonneg t).
    intros [E|E]; [injection E as -> ->; lia|]. apply (IH _ C) in E. lia. }
  intros H. apply (G _ _ C) in H. lia.
Qed.

Section Prim.
Context {L : GoLib}.
Notation X := (list Z). Notation up := record.
Definition w_in (s : wst X) : Prop := 0 <= pos (Watch.sc s) <= slen (full (Watch.sc s)) /\ slen (full (Watch.sc s)) < 2 ^ 63.
(** Answers no and changes nothing, or moves forward inside the text. *)
Definition bprim (pn : bool) (m : Watch.M (X := X) bool) : Prop := forall s, w_in s ->
  m s = Ok (false, s) \/
  (exists p, pos (Watch.sc s) <= p <= slen (full (Watch.sc s)) /\ m s = Ok (true, Watch.moveto up p s)) \/
  (pn = true /\ m s = Panic).

Lemma moveto_sc p (s : wst X) : Watch.sc (Watch.moveto up p s) = mkSc (full (Watch.sc s)) p (trk (Watch.sc s)).
Proof. unfold Watch.moveto. destruct (trk (Watch.sc s)) eqn:E; cbn; rewrite ?E; reflexivity. Qed.
Lemma in_text_move s p : w_in s -> 0 <= p <= slen (full (Watch.sc s)) -> w_in (Watch.moveto up p s).
Proof. intros [A B] H. unfold w_in. rewrite moveto_sc. split; auto. Qed.
Lemma w_tail (s : wst X) a b : at_split (w_st s) a b -> Watch.s_tail s = Ok (b, s).
Proof. intros H. apply s_tail_split in H. unfold Watch.s_tail, s_tail, Watch.sc in *. destruct (_ && _); [|discriminate]. injection H as ->. reflexivity. Qed.
Lemma w_bind {A B} (m : Watch.M (X := X) A) (f : A -> Watch.M (X := X) B) s a s' : m s = Ok (a, s') -> Watch.bind m f s = f a s'.
Proof. intros E. unfold Watch.bind. rewrite E. reflexivity. Qed.
Lemma w_marker m s : 0 <= m -> Watch.to_marker up m s = Ok (true, Watch.moveto up m s).
Proof. intros H. unfold Watch.to_marker. replace (m <? 0) with false by lia. reflexivity. Qed.
Lemma move_tail s a b d : at_split (w_st s) a b -> 0 <= d <= slen b ->
  Watch.move up d s = Ok (true, Watch.moveto up (pos (Watch.sc s) + d) s) /\ pos (Watch.sc s) <= pos (Watch.sc s) + d <= slen (full (Watch.sc s)).
Proof.
  intros H D. pose proof (split_bounds _ _ _ H) as B. change (sc (w_st s)) with (Watch.sc s) in B. split; [|lia]. unfold Watch.move. cbv zeta. rewrite wrap64_id by lia.
  replace (_ || _) with false by lia. reflexivity.
Qed.

Ltac tail_split s I a b H := let J := fresh in pose proof (proj1 (at_split_in_text (w_st s)) I) as J; destruct J as (a & b & H); rewrite (w_bind _ _ _ _ _ (w_tail _ _ _ H)).

Lemma bprim_if_str x : bprim false (Watch.if_str up x).
Proof.
  intros s I. unfold Watch.if_str. tail_split s I a b H. destruct (has_prefix b x) eqn:E; [|left; reflexivity].
  right; left. apply has_prefix_iff in E as [t ->].
  destruct (move_tail s a (x ++ t) (slen x) H) as [E1 E2]. { rewrite slen_app. pose proof (slen_nonneg x). pose proof (slen_nonneg t). lia. }
  eauto.
Qed.
Lemma bprim_or pn m (f : bool -> Watch.M (X := X) bool) : bprim pn m -> bprim pn (f false) -> f true = Watch.ret true -> bprim pn (Watch.bind m f).
Proof.
  intros A B C s I. unfold Watch.bind. destruct (A s I) as [E|[(p & P & E)|[P E]]]; rewrite E.
  - apply B; auto.
  - right; left. exists p. rewrite C. auto.
  - auto.
Qed.
Lemma bprim_if_any x : bprim false (Watch.if_any up x).
Proof.
  induction x; cbn [Watch.if_any]; [intros s I; left; reflexivity|].
  apply bprim_or; auto. apply bprim_if_str.
Qed.
Lemma bprim_if_rune r : bprim false (Watch.if_rune up r).
Proof.
  intros s I. unfold Watch.if_rune. tail_split s I a b H. pose proof (decode_le b) as D.
  destruct (decode_rune b) as [v i]. cbn [snd] in D. destruct (v =? r); cbn [negb]; [|left; reflexivity].
  right; left. destruct (move_tail s a b (Z.of_nat i) H) as [E1 E2]; [unfold slen; lia|]. eauto.
Qed.
Lemma bprim_if_any_rune x : bprim false (Watch.if_any_rune up x).
Proof.
  unfold Watch.if_any_rune. induction (runes x) as [|r rs IH]; cbn [Watch.if_any_rune_loop]; [intros s I; left; reflexivity|].
  apply bprim_or; auto. apply bprim_if_rune.
Qed.
Lemma bprim_if_between mn mx : bprim false (Watch.if_between up mn mx).
Proof.
  intros s I. unfold Watch.if_between. tail_split s I a b H. destruct (slen b =? 0); [left; reflexivity|].
  pose proof (decode_le b) as D. destruct (decode_rune b) as [v i]. cbn [snd] in D.
  destruct (in_range mn v mx); cbn [negb]; [|left; reflexivity].
  right; left. destruct (move_tail s a b (Z.of_nat i) H) as [E1 E2]; [unfold slen; lia|]. eauto.
Qed.
Lemma bprim_if_match f : bprim false (Watch.if_match up f).
Proof.
  intros s I. unfold Watch.if_match. tail_split s I a b H.
  pose proof (decode_le b) as D. destruct (decode_rune b) as [v i]. cbn [snd] in D.
  destruct (negb (Nat.eqb i 0) && f v); [|left; reflexivity].
  right; left. destruct (move_tail s a b (Z.of_nat i) H) as [E1 E2]; [unfold slen; lia|]. eauto.
Qed.
Lemma bprim_if_fold x : bprim true (Watch.if_fold up x).
Proof.
  intros s I. unfold Watch.if_fold. tail_split s I a b H. destruct (slen b <? slen x) eqn:E; [right; right; auto|].
  destruct (equal_fold _ _); [|left; reflexivity].
  right; left. destruct (move_tail s a b (slen x) H) as [E1 E2]; [pose proof (slen_nonneg x); lia|]. eauto.
Qed.
Lemma bprim_weaken m pn : bprim false m -> bprim pn m.
Proof. intros H s I. destruct (H s I) as [E|[E|[E _]]]; auto. discriminate. Qed.

(** MoveRunes(1): over one chunk, three bytes over an ill-formed byte. *)
Lemma move_runes1_strict s : w_in s -> Watch.move_runes up 1 s = Ok (false, s) \/
  exists p, pos (Watch.sc s) < p <= slen (full (Watch.sc s)) /\ Watch.move_runes up 1 s = Ok (true, Watch.moveto up p s).
Proof.
  intros I. unfold Watch.move_runes. cbn [Z.ltb Z.compare]. tail_split s I a b H.
  destruct (move_runes_fwd 1 (range_str b) 0) as [d|] eqn:E; [|left; reflexivity].
  assert (1 <= d < 2 ^ 62).
  { destruct b as [|x b]; [discriminate|].
    destruct (chunked_exists (x :: b)) as [l C]. rewrite (range_str_chunked _ _ C) in E.
    destruct l as [|[r c] l]; [apply chunked_nil_r in C; discriminate|].
    apply chunked_cons_inv in C as (t & _ & _ & _ & N & C). cbn [indexed move_runes_fwd] in E.
    injection E as <-. destruct C as [[Hr _]|[-> _]]; [|cbn; lia].
    rewrite rune_len_scalar by auto. unfold slen. pose proof (utf8_length_pos r). lia. }
  unfold Watch.move. pose proof (split_bounds _ _ _ H) as B. destruct I as [I1 I2]. change (sc (w_st s)) with (Watch.sc s) in *. cbv zeta.
  match goal with |- context [if (?a || ?b)%bool then _ else _] => destruct (a || b)%bool eqn:E2 end; [left; reflexivity|].
  right. eexists. split; [|reflexivity].
  destruct (Z_lt_ge_dec (pos (Watch.sc s) + d) (2 ^ 63)); [rewrite wrap64_id in * by lia; lia|].
  exfalso. unfold wrap64 in E2. lia.
Qed.
Lemma bprim_move_runes1 : bprim false (Watch.move_runes up 1).
Proof. intros s I. destruct (move_runes1_strict s I) as [E|(p & P & E)]; [auto|]. right; left. exists p. split; [lia|auto]. Qed.

Section Fwd.
Context (e : env) (p : reader -> Prop) (pn : bool).
(** What was written down since [snd k]; without a Tracker nothing. *)
Definition J (t : bytes) (k : option nat * list Z) (a0 : Z) (s : wst (list Z)) : Prop :=
  exists new, w_x s = snd k ++ new /\ Forall (fun m => a0 <= m <= slen t) new /\ (fst k = None -> new = []).
(** [a0] is the position where the whole run started, [a] a later bound below which
    the scanner does not go again. *)
Definition inv (t : bytes) (k : option nat * list Z) (a0 a : Z) (s : wst (list Z)) : Prop :=
  w_in s /\ full (Watch.sc s) = t /\ trk (Watch.sc s) = fst k /\ a0 <= a <= pos (Watch.sc s) /\ J t k a0 s.
Definition fw {A} (t : bytes) (k : option nat * list Z) (a0 a : Z) (m : Watch.M (X := X) A) : Prop := forall s, inv t k a0 a s ->
  match m s with Ok (_, s') => inv t k a0 a s' | Panic => pn = true | Fuel => True end.
Lemma Jmove t k a s q : trk (Watch.sc s) = fst k -> J t k a s -> a <= q <= slen t -> J t k a (Watch.moveto up q s).
Proof.
  intros T (new & E & F & N) Q. unfold Watch.moveto. rewrite T. destruct (fst k) eqn:K; [|exists new; auto].
  exists (new ++ [q]). cbn [snd w_x record]. rewrite E, app_assoc. split; auto. split; [|rewrite K; discriminate]. apply Forall_app. split; auto.
Qed.
Lemma inv_move t k a0 a s q : inv t k a0 a s -> a <= q <= slen t -> 0 <= q -> inv t k a0 a (Watch.moveto up q s).
Proof.
  intros (I1 & I2 & I3 & I4 & I5) Q Q0. unfold inv. rewrite moveto_sc. split; [|split; [exact I2|split; [exact I3|split; [cbn; lia|apply Jmove; auto; lia] ] ] ].
  apply in_text_move; auto. destruct I1. subst t. lia.
Qed.
Context
  (Pwrap : forall w f, ~ p (RWrap w f))
  (Pfold : forall x, p (RFold x) -> pn = true)
  (Prule : forall i, p (RRule i) -> r_reader (get_rule e i) = None -> pn = true)
  (Pgram : forall w x i, p (RGrammar w x i) -> r_reader (get_rule e i) = None -> pn = true)
  (Penv : eallP p e).

Section Rules.
Context (t : bytes) (k : option nat * list Z) (a0 a : Z).

Lemma fw_ret {A} (x : A) : fw t k a0 a (Watch.ret x).
Proof. intros s H. exact H. Qed.
Lemma fw_fuel {A} : fw t k a0 a (@Watch.out_of_fuel X A).
Proof. intros s H. exact I. Qed.
Lemma fw_bind {A B} (m : Watch.M (X := X) A) (f : A -> Watch.M (X := X) B) : fw t k a0 a m -> (forall x, fw t k a0 a (f x)) -> fw t k a0 a (Watch.bind m f).
Proof.
  intros A1 B1 s H. unfold Watch.bind. specialize (A1 s H). destruct (m s) as [[x s']| |]; auto. apply B1; auto.
Qed.
Lemma fw_mark {B} (f : Z -> Watch.M (X := X) B) :
  (forall m, a <= m <= slen t -> 0 <= m -> a0 <= m -> fw t k a0 m (f m)) -> fw t k a0 a (Watch.bind Watch.mark f).
Proof.
  intros H s I. unfold Watch.bind, Watch.mark, Watch.gets. pose proof I as (I1 & I2 & I3 & I4 & I5).
  assert (HX : fw t k a0 (pos (Watch.sc s)) (f (pos (Watch.sc s)))).
  { destruct I1. subst t. apply H; lia. }
  assert (I' : inv t k a0 (pos (Watch.sc s)) s). { split; auto. split; auto. split; auto. split; auto. lia. }
  specialize (HX s I'). destruct (f _ s) as [[x s']| |]; auto.
  destruct HX as (X1 & X2 & X3 & X4 & X5). split; auto. split; auto. split; auto. split; auto. lia.
Qed.
Lemma fw_marker m : a <= m <= slen t -> 0 <= m -> fw t k a0 a (Watch.to_marker up m).
Proof.
  intros H H0 s I. rewrite w_marker by auto. apply inv_move; auto.
Qed.
Lemma fw_bprim m : bprim pn m -> fw t k a0 a m.
Proof.
  intros H s I. pose proof I as (I1 & I2 & I3 & I4 & I5). destruct (H s I1) as [E|[(q & Q & E)|[P E]]]; rewrite E; auto.
  destruct I1 as [J1 J2]. apply inv_move; auto; subst t; lia.
Qed.
Lemma fw_if {A} (c : bool) (m1 m2 : Watch.M (X := X) A) : fw t k a0 a m1 -> fw t k a0 a m2 -> fw t k a0 a (if c then m1 else m2).
Proof. destruct c; auto. Qed.
Lemma fw_gets {A} (f : wst X -> A) : fw t k a0 a (Watch.gets f).
Proof. intros s I. exact I. Qed.
Lemma fw_tail {B} (f : bytes -> Watch.M (X := X) B) :
  (forall s u b, inv t k a0 a s -> at_split (w_st s) u b ->
     match f b s with Ok (_, s') => inv t k a0 a s' | Panic => pn = true | Fuel => True end) ->
  fw t k a0 a (Watch.bind Watch.s_tail f).
Proof.
  intros H s I. pose proof I as (I1 & I2 & I3 & I4 & I5). tail_split s I1 u b HX. apply (H s u b); auto.
Qed.
Lemma fw_other (f : heap -> heap) : fw t k a0 a (Watch.modh f).
Proof. intros s I. exact I. Qed.
Lemma fw_error_for w : fw t k a0 a (Watch.error_for w).
Proof. intros s I. exact I. Qed.
Lemma fw_error_if_false ok w : fw t k a0 a (Watch.error_if_false ok w).
Proof. intros s I. destruct ok; exact I. Qed.
Lemma fw_token {B} m m' (f : bytes -> Watch.M (X := X) B) : 0 <= m <= m' -> m' <= slen t ->
  (forall str, slen str < 2 ^ 63 -> fw t k a0 a (f str)) -> fw t k a0 a (Watch.bind (Watch.get_tok (make_token m m')) f).
Proof.
  intros H1 H2 H s I. pose proof I as (I1 & I2 & I3 & I4 & I5). unfold Watch.bind, Watch.get_tok, make_token.
  replace (m' <? m) with false by lia. cbn [t_from t_to].
  replace ((0 <=? m) && (m <=? m') && (m' <=? slen (full (Watch.sc s)))) with true by (subst t; lia).
  cbv iota beta. apply H; auto. destruct I1 as [_ I1]. rewrite slen_slice; subst t; lia.
Qed.
End Rules.


Lemma fw_weaken_a {A} t k a0 a a' (m : Watch.M (X := X) A) : a0 <= a <= a' -> fw t k a0 a m -> (forall b, fw t k a0 b m) -> fw t k a0 a' m.
Proof. auto. Qed.

Ltac fw1 := first
  [ apply fw_ret | apply fw_fuel | apply fw_gets | apply fw_error_for | apply fw_error_if_false
  | apply fw_if | (apply fw_marker; [lia|lia])
  | (apply fw_mark; intros) | (apply fw_bind; [|intros]) | apply fw_other ].

Lemma fw_any rds t k a0 : (forall rd a, In rd rds -> fw t k a0 a rd) ->
  forall a m errs, a <= m <= slen t -> 0 <= m -> fw t k a0 a (Watch.any_loop up rds m errs).
Proof.
  induction rds as [|rd rds IH]; intros H a m errs Hm H0; cbn [Watch.any_loop].
  - repeat fw1.
  - apply fw_bind; [apply H; left; auto|]. intros [x|]; [|fw1]. apply IH; auto. intros; apply H; right; auto.
Qed.
Lemma fw_seq rds t k a0 : (forall rd a, In rd rds -> fw t k a0 a rd) ->
  forall a m, a <= m <= slen t -> 0 <= m -> fw t k a0 a (Watch.seq_loop up rds m).
Proof.
  induction rds as [|rd rds IH]; intros H a m Hm H0; cbn [Watch.seq_loop].
  - repeat fw1.
  - apply fw_bind; [apply H; left; auto|]. intros [x|]; [repeat fw1|]. apply IH; auto. intros; apply H; right; auto.
Qed.
Lemma fw_skip sk rds t k a0 a : fw t k a0 a sk -> (forall rd, In rd rds -> fw t k a0 a rd) ->
  forall x, fw t k a0 a (Watch.skip_loop sk rds x).
Proof.
  intros Hs. induction rds as [|rd rds IH]; intros H x; cbn [Watch.skip_loop]; [fw1|].
  destruct x; [fw1|]. apply fw_bind; [apply H; left; auto|]. intros [x|].
  - apply IH. intros; apply H; right; auto.
  - apply fw_bind; auto. intros x. apply IH. intros; apply H; right; auto.
Qed.
Lemma fw_rep n rd t k a0 a : fw t k a0 a rd -> fw t k a0 a (Watch.rep_loop n rd).
Proof.
  intros H. induction n as [|n IH]; cbn [Watch.rep_loop]; [fw1|]. apply fw_bind; auto. intros [x|]; auto. fw1.
Qed.
Lemma fw_times n rd t k a0 a : fw t k a0 a rd -> fw t k a0 a (Watch.times_loop n rd).
Proof.
  intros H. induction n as [|n IH]; cbn [Watch.times_loop]; [fw1|]. apply fw_bind; auto. intros [x|]; auto. fw1.
Qed.
Lemma fw_runes1 t k a0 a : fw t k a0 a (Watch.move_runes up 1).
Proof. apply fw_bprim. apply bprim_weaken. apply bprim_move_runes1. Qed.
Lemma fw_past n rd t k a0 a : fw t k a0 a rd -> fw t k a0 a (Watch.past_loop up n rd).
Proof.
  intros H. induction n as [|n IH]; cbn [Watch.past_loop]; [fw1|]. apply fw_bind; [apply fw_gets|]. intros fin.
  apply fw_if; [fw1|]. apply fw_bind; auto. intros [x|]; [|fw1]. apply fw_bind; auto. apply fw_runes1.
Qed.
Lemma fw_to n rd t k a0 : (forall a, fw t k a0 a rd) -> forall a, fw t k a0 a (Watch.to_loop up n rd).
Proof.
  intros H. induction n as [|n IH]; intros a; cbn [Watch.to_loop]; [fw1|]. apply fw_mark. intros m Hm H0 H1.
  apply fw_bind; auto. intros [x|]; [|repeat fw1]. apply fw_bind; [apply fw_runes1|]. intros ok. apply fw_if; [|fw1]. apply IH.
Qed.
Lemma fw_bany l t k a0 a : fw t k a0 a (Watch.between_any_loop up l).
Proof.
  induction l as [|[mn mx] l IH]; cbn [Watch.between_any_loop]; [fw1|]. apply fw_bind; [apply fw_bprim, bprim_weaken, bprim_if_between|].
  intros ok. apply fw_if; auto. fw1.
Qed.

Lemma fw_on_sub b str t k a0 a : slen str < 2 ^ 63 -> (forall t k a0 a, fw t k a0 a b) -> fw t k a0 a (Watch.on_sub up str b).
Proof.
  intros Hs Hb s I. pose proof I as (I1 & I2 & I3 & I4 & I5). unfold Watch.on_sub.
  assert (F : fw str (None, w_x s) 0 0 (Watch.bind (Watch.use up b) (fun e => Watch.bind Watch.at_end (fun fin => Watch.ret (e, fin))))).
  { unfold Watch.use. apply fw_bind; [|intros x; repeat fw1]. apply fw_mark. intros m Hm H0 H1. apply fw_bind; [apply Hb|]. intros [x|]; repeat fw1. }
  assert (I0 : inv str (None, w_x s) 0 0 (mkW (mkSt (new_scanner str) (Watch.hp s)) (w_x s))).
  { split; [split; [cbn; pose proof (slen_nonneg str); lia|exact Hs]|]. split; auto. split; auto. split; [cbn; lia|]. exists []. rewrite app_nil_r. auto. }
  specialize (F _ I0). destruct (Watch.bind _ _ _) as [[x s']| |]; auto. destruct F as (_ & _ & _ & _ & new & E & _ & N).
  rewrite (N eq_refl), app_nil_r in E. cbn [snd] in E. split; [exact I1|]. split; [exact I2|]. split; [exact I3|]. split; [exact I4|]. unfold J. cbn [w_x]. rewrite E. exact I5.
Qed.
Lemma fw_body n m body tl back t k a0 : (forall t k a0 a, fw t k a0 a body) -> (forall a, fw t k a0 a tl) ->
  forall a, 0 <= m <= a -> fw t k a0 a (Watch.body_loop up n m body tl back).
Proof.
  intros Hb H. induction n as [|n IH]; intros a Ha; cbn [Watch.body_loop]; [fw1|].
  apply fw_bind; [apply fw_gets|]. intros fin. apply fw_if; [fw1|].
  apply fw_mark. intros u Hu H0 H1. apply fw_bind; auto. intros [x|].
  - apply fw_bind; [apply fw_runes1|]. intros _. apply IH. lia.
  - apply fw_token; [lia|lia|]. intros str Hs. apply fw_bind; [apply fw_on_sub; auto|].
    intros [[x|] fin']; cbn [fst snd]; [fw1|]. repeat fw1.
Qed.

Lemma fw_move_tail s u b d t k a0 a : inv t k a0 a s -> at_split (w_st s) u b -> 0 <= d <= slen b ->
  exists s', Watch.move up d s = Ok (true, s') /\ inv t k a0 a s'.
Proof.
  intros I H D. pose proof I as (I1 & I2 & I3 & I4 & I5). destruct (move_tail s u b d H D) as [E1 E2]. rewrite E1.
  eexists. split; [reflexivity|]. destruct I1 as [J1 J2]. apply inv_move; auto; subst t; lia.
Qed.
Lemma fw_read_int base bits t k a0 a : fw t k a0 a (Watch.read_int up base bits).
Proof.
  unfold Watch.read_int. destruct (char_func base); [|fw1]. destruct (int_bounds bits) as [[mn mx]|]; [|fw1].
  apply fw_mark. intros m Hm H0 H1. apply fw_bind; [apply fw_bprim, bprim_weaken, bprim_if_rune|]. intros neg.
  apply fw_bind; [apply fw_if; [fw1|apply fw_bprim, bprim_weaken, bprim_if_rune]|]. intros _.
  apply fw_tail. intros s u b I H. destruct (read_int_loop _ _ _ _ _ _ _ _) as [v n'] eqn:E.
  apply int_loop_in in E. destruct (n' =? -1) eqn:E1.
  - refine ((_ : fw t k a0 m _) s I). repeat fw1.
  - destruct E as [->|[r E]]; [discriminate|]. apply range_in in E.
    destruct (fw_move_tail s u b (n' + 1) t k a0 m I H ltac:(lia)) as (s' & E2 & E3).
    unfold Watch.bind. rewrite E2. exact E3.
Qed.
Lemma fw_read_uint base bits t k a0 a : fw t k a0 a (Watch.read_uint up base bits).
Proof.
  unfold Watch.read_uint. destruct (char_func base); [|fw1]. destruct (uint_max bits) as [mx|]; [|fw1].
  apply fw_tail. intros s u b I H. destruct (read_uint_loop _ _ _ _ _ _) as [v n'] eqn:E.
  apply uint_loop_in in E. destruct (n' =? -1) eqn:E1.
  - exact I.
  - destruct E as [->|[r E]]; [discriminate|]. apply range_in in E.
    destruct (fw_move_tail s u b (n' + 1) t k a0 a I H ltac:(lia)) as (s' & E2 & E3).
    unfold Watch.bind. rewrite E2. exact E3.
Qed.
Lemma fw_read_bool f t k a0 a : fw t k a0 a (Watch.read_bool up f).
Proof.
  unfold Watch.read_bool, Watch.read_bool_strs.
  repeat first [ apply fw_bprim; apply bprim_weaken; first [apply bprim_if_any | apply bprim_if_str] | fw1 ].
Qed.

(** tokenize_use, with what the token is. *)
Lemma tokenize_fw rd t k a0 a s : (forall a, fw t k a0 a rd) -> inv t k a0 a s ->
  match Watch.tokenize_use up rd s with
  | Ok ((tk, x), s') => inv t k a0 a s' /\ (x = None -> tk = make_token (pos (Watch.sc s)) (pos (Watch.sc s')) /\ pos (Watch.sc s) <= pos (Watch.sc s'))
  | Panic => pn = true | Fuel => True end.
Proof.
  intros H I. pose proof I as (I1 & I2 & I3 & I4 & I5). unfold Watch.tokenize_use, Watch.bind at 1 2, Watch.mark, Watch.gets.
  assert (I' : inv t k a0 (pos (Watch.sc s)) s). { split; auto. split; auto. split; auto. split; [lia|auto]. }
  pose proof (H _ s I') as B. destruct (rd s) as [[x s']| |]; auto. pose proof B as (B1 & B2 & B3 & B4 & B5).
  assert (A : inv t k a0 a s'). { split; auto. split; auto. split; auto. split; [lia|auto]. } destruct x as [y|].
  - unfold Watch.bind. destruct I1 as [P1 P2]. rewrite w_marker by lia. split; [|discriminate]. apply inv_move; auto; subst t; lia.
  - cbn. split; [exact A|]. intros _. split; auto. lia.
Qed.

Theorem fw_readP n : forall t k a0 a r, rallP p r -> fw t k a0 a (Watch.read up n e r).
Proof.
  induction n as [|n IH]; intros t k a0 a r Hp; [apply fw_fuel|].
  assert (IL : forall rs t k a0 a rd, fold_right (fun x q => rallP p x /\ q) True rs -> In rd (map (Watch.read up n e) rs) -> fw t k a0 a rd).
  { intros rs t' k' a0' a' rd F Hin. apply in_map_iff in Hin as (x & <- & X). apply IH.
    apply (all_in _ _ F); auto. }
  pose proof (rallP_here _ _ Hp) as Ph.
  destruct r; cbn [Watch.read]; cbn [rallP] in Hp; destruct Hp as [_ Hp];
    try match type of Hp with _ /\ _ => destruct Hp as [Hp Hp2] end;
    try solve [ repeat first [ apply IH; auto; fail | apply fw_bprim; apply bprim_weaken; first [apply bprim_if_str|apply bprim_if_any_rune|apply bprim_if_between|apply bprim_if_match|apply bprim_if_rune]
       | apply fw_bany | apply fw_read_bool | apply fw_read_int | apply fw_read_uint | apply fw_rep | apply fw_times | apply fw_past | apply fw_runes1 | fw1 ] ].
  - (* Any *) apply fw_mark. intros m Hm H0 H1. apply fw_any; try lia. intros rd b. apply IL; auto.
  - (* Body *) apply fw_mark. intros m Hm H0 H1. apply fw_bind.
    + apply fw_body; [intros; apply IH; auto|intros; apply IH; auto|lia].
    + intros ok. repeat fw1.
  - (* BodyTail *) apply fw_mark. intros m Hm H0 H1. apply fw_bind.
    + apply fw_body; [intros; apply IH; auto|intros; apply IH; auto|lia].
    + intros ok. repeat fw1.
  - (* Fold *) apply fw_bind; [apply fw_bprim|intros; fw1]. rewrite (Pfold _ Ph). apply bprim_if_fold.
  - (* Holey *) apply fw_tail. intros s u b I H. pose proof (decode_le b) as D.
    destruct (decode_rune b) as [v i]. cbn [snd] in D.
    destruct (_ && _).
    + destruct (fw_move_tail s u b (Z.of_nat i) t k a0 a I H ltac:(unfold slen; lia)) as (s' & E2 & E3).
      unfold Watch.bind. rewrite E2. exact E3.
    + exact I.
  - (* JanusBeg *) intros s I. pose proof (tokenize_fw (Watch.read up n e r) t k a0 a s ltac:(intros; apply IH; auto) I) as HX.
    unfold Watch.bind at 1. destruct (Watch.tokenize_use _ _ s) as [[[tk x] s']| |]; auto. destruct HX as [X1 X2]. cbn [fst snd].
    destruct x as [y|]; [exact X1|]. destruct (X2 eq_refl) as (-> & X3).
    pose proof I as ([I1 _] & I2 & _). pose proof X1 as ([Y1 _] & Y2 & _).
    refine ((_ : fw t k a0 a _) s' X1). apply fw_token; [lia|rewrite <- Y2; lia|]. intros str _. repeat fw1.
  - (* JanusEnd *) apply fw_bind; [fw1|]. intros str. apply fw_bind; [apply fw_bprim, bprim_weaken, bprim_if_str|].
    intros ok. apply fw_bind; [fw1|]. intros [x|]; repeat fw1.
  - (* Map *) intros s I. pose proof (tokenize_fw (Watch.read up n e r) t k a0 a s ltac:(intros; apply IH; auto) I) as HX.
    unfold Watch.bind at 1. destruct (Watch.tokenize_use _ _ s) as [[[tk x] s']| |]; auto. destruct HX as [X1 X2]. cbn [fst snd]. destruct x as [y|]; exact X1.
  - (* Not *) apply fw_mark. intros m Hm H0 H1. apply fw_bind; [apply IH; auto|]. intros x. apply fw_bind; [fw1|].
    intros _. destruct x; [|fw1]. apply fw_bind; [apply fw_runes1|intros; fw1].
  - (* Seq *) apply fw_mark. intros m Hm H0 H1. apply fw_seq; try lia. intros rd b. apply IL; auto.
  - (* SkipSeq *) apply fw_mark. intros m Hm H0 H1. apply fw_bind; [apply IH; auto|]. intros x.
    apply fw_bind; [apply fw_skip; [apply IH; auto|intros rd; apply IL; auto]|]. intros [y|]; repeat fw1.
  - (* To *) apply fw_mark. intros m Hm H0 H1. apply fw_bind; [apply fw_to; intros; apply IH; auto|]. intros ok. repeat fw1.
  - (* Wrap *) destruct (Pwrap _ _ Ph).
  - (* Pick *) intros s I. pose proof (tokenize_fw (Watch.read up n e r) t k a0 a s ltac:(intros; apply IH; auto) I) as HX.
    unfold Watch.bind at 1. destruct (Watch.tokenize_use _ _ s) as [[[tk x] s']| |]; auto. destruct HX as [X1 X2]. cbn [fst snd]. destruct x as [y|]; exact X1.
  - (* Rule *) destruct (r_reader (get_rule e i)) as [sub|] eqn:E; [apply IH; eapply Penv; eauto|].
    intros s I. apply (Prule i); auto.
  - (* Grammar *) destruct (r_reader (get_rule e i)) as [sub|] eqn:E; [|intros s I; apply (Pgram _ _ _ Ph); auto].
    apply fw_bind; [apply IH; eapply Penv; eauto|]. intros [x|]; fw1.
Qed.

End Fwd.


End Prim.
