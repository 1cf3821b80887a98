(** ReaderFacts.v - forward movement (C37) and restoring on failure (C38). *)
From Verif Require Export ReaderFwd.
From Coq Require Import Lia ZifyBool.

(** No user function of Wrap. *)
Definition no_wrap (r : reader) : bool := match r with RWrap _ _ => false | _ => true end.
(** Not one of the two causes of a panic: Fold, or a Rule without Reader. *)
Definition no_panic (e : env) (r : reader) : bool :=
  match r with
  | RFold _ => false
  | RRule i | RGrammar _ _ i => match r_reader (get_rule e i) with Some _ => true | None => false end
  | _ => true
  end.

Section Inst.
Context {L : GoLib} (e : env).
Definition safe (r : reader) : bool := no_wrap r && no_panic e r.
Let T (_ : Z) (_ : st) := True.

Lemma fw_wrap : eall no_wrap e ->
  forall n t k a0 a r, rall no_wrap r = true -> fw true T t k a0 a (read n e r).
Proof.
  intros He n t k a0 a r Hr. apply (fw_readP e (fun r => no_wrap r = true) true T); auto; try (intros; exact I); try (intros; discriminate);
    try (apply eallP_eall; auto); try (apply rallP_rall; auto).
  intros m b t' _ Hb IH a1 str s Hs _.
  assert (I0 : inv T str None 0 0 (mkSt (new_scanner str) (hp s))).
  { split; [split; [cbn; pose proof (slen_nonneg str); lia|exact Hs]|]. split; [reflexivity|]. split; [reflexivity|]. split; [cbn; lia|exact I]. }
  specialize (IH str None 0 0 b Hb _ I0). destruct (read m e b _) as [[x s']| |]; auto.
  destruct IH as (I1 & I2 & I3 & _). split; [exact I1|]. split; [exact I3|exact I].
Qed.
Lemma fw_safe : eall safe e ->
  forall n t k a0 a r, rall safe r = true -> fw false T t k a0 a (read n e r).
Proof.
  intros He n t k a0 a r Hr. apply (fw_readP e (fun r => safe r = true) false T); auto; try (intros; exact I); try (intros; discriminate);
    try (apply eallP_eall; auto); try (apply rallP_rall; auto).
  - intros i. unfold safe. cbn. intros X Y. rewrite Y in X. discriminate.
  - intros w x i. unfold safe. cbn. intros X Y. rewrite Y in X. discriminate.
  - intros m b t' _ Hb IH a1 str s Hs _.
    assert (I0 : inv T str None 0 0 (mkSt (new_scanner str) (hp s))).
    { split; [split; [cbn; pose proof (slen_nonneg str); lia|exact Hs]|]. split; [reflexivity|]. split; [reflexivity|]. split; [cbn; lia|exact I]. }
    specialize (IH str None 0 0 b Hb _ I0). destruct (read m e b _) as [[x s']| |]; auto.
    destruct IH as (I1 & I2 & I3 & _). split; [exact I1|]. split; [exact I3|exact I].
Qed.
End Inst.

Section Fwd.
Context {L : GoLib} (e : env) (He : eall no_wrap e).

Definition okfw {A} (m : M A) : Prop := forall s x s', in_text s -> m s = Ok (x, s') ->
  in_text s' /\ full (sc s') = full (sc s) /\ trk (sc s') = trk (sc s) /\ pos (sc s) <= pos (sc s').

Lemma fw_okfw {A} (m : M A) : (forall t k a, fw true (fun _ _ => True) t k a a m) -> okfw m.
Proof.
  intros H s x s' I E.
  assert (I0 : inv (fun _ _ => True) (full (sc s)) (trk (sc s)) (pos (sc s)) (pos (sc s)) s).
  { split; [exact I|]. split; [reflexivity|]. split; [reflexivity|]. split; [lia|]. exact Logic.I. }
  specialize (H _ _ _ s I0). rewrite E in H. destruct H as (A1 & A2 & A3 & A4 & _). repeat (split; [auto|]). lia.
Qed.
Lemma read_okfw n r : rall no_wrap r = true -> okfw (read n e r).
Proof. intros Hr. apply fw_okfw. intros. apply fw_wrap; auto. Qed.

Lemma read_no_panic n r s : eall (safe e) e ->
  rall (safe e) r = true -> in_text s -> read n e r s <> Panic.
Proof.
  intros H1 H2 I E.
  assert (I0 : inv (fun _ _ => True) (full (sc s)) (trk (sc s)) (pos (sc s)) (pos (sc s)) s).
  { split; [exact I|]. split; [reflexivity|]. split; [reflexivity|]. split; [lia|]. exact Logic.I. }
  pose proof (fw_safe e H1 n _ _ _ _ r H2 _ I0) as X. rewrite E in X. discriminate.
Qed.

(* ----------------------------------------------------------- restoring *)

(** Readers whose failure leaves the position alone by construction: Times is not
    in a pass-through position; [R] says so for rules. *)
Fixpoint restoring (R : nat -> bool) (r : reader) : bool :=
  match r with
  | RTimes k sub => (k <=? 0) || ((k =? 1) && restoring R sub)
  | RNamed _ sub | RMonitor _ _ sub | RRuleName sub => restoring R sub
  | RRule i | RGrammar _ _ i => R i
  | RWrap _ _ => false
  | _ => true
  end.
Definition restoring_rules (R : nat -> bool) : Prop :=
  forall i r, R i = true -> r_reader (get_rule e i) = Some r -> restoring R r = true.

Definition rst (m : M (option err)) : Prop := forall s x s', in_text s -> m s = Ok (Some x, s') -> pos (sc s') = pos (sc s).

Lemma bind_inv {A B} (m : M A) (f : A -> M B) s y s' : bind m f s = Ok (y, s') ->
  exists x s1, m s = Ok (x, s1) /\ f x s1 = Ok (y, s').
Proof. unfold bind. destruct (m s) as [[x s1]| |]; try discriminate. eauto. Qed.
Lemma marker_inv m s x s' : 0 <= m -> to_marker m s = Ok (x, s') -> pos (sc s') = m /\ s' = moveto m s.
Proof. intros H. rewrite to_marker_nonneg by auto. intros E. injection E as <- <-. auto. Qed.

Lemma any_rst rds m : 0 <= m -> forall errs s x s', any_loop rds m errs s = Ok (Some x, s') -> pos (sc s') = m.
Proof.
  intros Hm. induction rds as [|rd rds IH]; intros errs s x s' E; cbn [any_loop] in E; apply bind_inv in E as (y & s1 & E1 & E2).
  - apply marker_inv in E1 as [E1 _]; auto. injection E2 as _ <-. auto.
  - destruct y; [eauto|discriminate].
Qed.
Lemma seq_rst rds m : 0 <= m -> forall s x s', seq_loop rds m s = Ok (Some x, s') -> pos (sc s') = m.
Proof.
  intros Hm. induction rds as [|rd rds IH]; intros s x s' E; cbn [seq_loop] in E; [discriminate|].
  apply bind_inv in E as (y & s1 & E1 & E2). destruct y; [|eauto].
  apply bind_inv in E2 as (z & s2 & E2 & E3). apply marker_inv in E2 as [E2 _]; auto. injection E3 as _ <-. auto.
Qed.
Lemma prim_rst pn m w : bprim pn m -> rst (let* ok := m in error_if_false ok w).
Proof.
  intros H s x s' I E. apply bind_inv in E as (ok & s1 & E1 & E2).
  destruct (H s I) as [X|[(q & Q & X)|[_ X]]]; rewrite X in E1; [| |discriminate].
  - injection E1 as <- <-. injection E2 as _ <-. auto.
  - injection E1 as <- <-. discriminate.
Qed.
Lemma tail_rst m w s x s' (ok : bool) : 0 <= m -> (if ok then ret None else to_marker m ;; error_for w) s = Ok (Some x, s') -> pos (sc s') = m.
Proof.
  intros Hm E. destruct ok; [discriminate|]. apply bind_inv in E as (z & s2 & E2 & E3). apply marker_inv in E2 as [E2 _]; auto.
  injection E3 as _ <-. auto.
Qed.
Lemma tokenize_rst rd s tk x s' : in_text s -> tokenize_use rd s = Ok ((tk, Some x), s') -> pos (sc s') = pos (sc s).
Proof.
  intros [I _] E. unfold tokenize_use in E. apply bind_inv in E as (a & s1 & E1 & E2). injection E1 as <- <-.
  apply bind_inv in E2 as (y & s2 & E2 & E3). destruct y as [y|].
  - apply bind_inv in E3 as (z & s3 & E3 & E4). apply marker_inv in E3 as [E3 _]; [|lia].
    apply bind_inv in E4 as (b & s4 & E4 & E5). injection E4 as <- <-. injection E5 as _ _ <-. auto.
  - apply bind_inv in E3 as (b & s3 & E3 & E4). discriminate.
Qed.

Ltac inv_bind E := let x := fresh "x" in let s := fresh "s" in let E1 := fresh "E" in apply bind_inv in E as (x & s & E1 & E).
Ltac inv_mark E := inv_bind E; match goal with H : mark _ = Ok _ |- _ => injection H as <- <- end.

Theorem read_restores (R : nat -> bool) : restoring_rules R ->
  forall n r, rall no_wrap r = true -> restoring R r = true -> rst (read n e r).
Proof.
  intros HR. induction n as [|n IH]; intros r Hw Hr s x s' I E; [discriminate|].
  pose proof I as [I1 I2].
  destruct r; cbn [read] in E; cbn [restoring] in Hr; cbn [rall] in Hw; apply andb_true_iff in Hw as [Hn Hw];
    try (apply andb_true_iff in Hw as [Hw Hw2]);
    try discriminate Hr;
    match type of E with
    | bind (if_any_rune _) _ _ = _ => eapply prim_rst; [apply bprim_if_any_rune|exact I|exact E]
    | bind (if_between _ _) _ _ = _ => eapply prim_rst; [apply bprim_if_between|exact I|exact E]
    | bind (if_match _) _ _ = _ => eapply prim_rst; [apply bprim_if_match|exact I|exact E]
    | bind (if_rune _) _ _ = _ => eapply prim_rst; [apply bprim_if_rune|exact I|exact E]
    | bind (if_str _) _ _ = _ => eapply prim_rst; [apply bprim_if_str|exact I|exact E]
    | bind (if_fold _) _ _ = _ => eapply prim_rst; [apply bprim_if_fold|exact I|exact E]
    | _ => idtac
    end.
  - (* Any *) inv_mark E. eapply any_rst; eauto. lia.
  - (* At *) inv_mark E. inv_bind E. inv_bind E. apply marker_inv in E1 as [E1 _]; [|lia]. injection E as _ <-. auto.
  - (* AtEnd *) inv_bind E. unfold at_end, gets in E0. injection E0 as <- <-. destruct (_ =? _); [discriminate|]. injection E as _ <-. auto.
  - (* BetweenAny *) inv_mark E. inv_bind E. destruct x0; [discriminate|]. inv_bind E. eapply tail_rst; [|exact E]. lia.
  - (* Body *) inv_mark E. inv_bind E. eapply tail_rst; [|exact E]. lia.
  - (* BodyTail *) inv_mark E. inv_bind E. eapply tail_rst; [|exact E]. lia.
  - (* Bool *) inv_bind E. destruct (read_bool_total format s I) as (v & y & s2 & X & Y & _). rewrite E0 in X. injection X as -> ->.
    inv_bind E. injection E1 as _ <-. cbn [snd] in E. injection E as -> <-. rewrite (Y ltac:(discriminate)). auto.
  - (* Holey *) apply at_split_in_text in I as (u & b & H). rewrite (bind_ok _ _ _ _ _ (s_tail_split _ _ _ H)) in E.
    pose proof (decode_le b) as D. destruct (decode_rune b) as [v i]. cbn [snd] in D. destruct (_ && _); [|injection E as _ <-; auto].
    destruct (move_tail s u b (Z.of_nat i) H) as [E1 _]; [unfold slen; lia|].
    rewrite (bind_ok _ _ _ _ _ E1) in E. discriminate.
  - (* Int *) inv_bind E. destruct (read_int_total base bits s I) as (v & y & s2 & X & _ & _ & _ & Y & _). rewrite E0 in X. injection X as -> ->.
    inv_bind E. injection E1 as _ <-. cbn [snd] in E. injection E as -> <-. apply Y. discriminate.
  - (* JanusBeg *) inv_bind E. destruct x0 as [tk [y|]]; cbn [fst snd] in E.
    + injection E as _ <-. eapply tokenize_rst; eauto.
    + inv_bind E. inv_bind E. discriminate.
  - (* JanusEnd *) inv_bind E. unfold gets in E0. injection E0 as <- <-. inv_bind E. inv_bind E.
    destruct x1 as [y|]; [|inv_bind E; discriminate]. injection E as _ <-.
    eapply prim_rst; [apply bprim_if_str|exact I|]. unfold bind. rewrite E0. exact E1.
  - (* Invalid *) injection E as _ <-. auto.
  - (* Many *) inv_mark E. inv_bind E. inv_bind E. injection E1 as <- <-.
    assert (F : okfw (rep_loop n (read n e r))).
    { apply fw_okfw. intros. apply fw_rep; auto. apply fw_wrap; auto. }
    destruct (F _ _ _ I E0) as (_ & _ & _ & F4).
    destruct (pos (sc s) <? pos (sc s0)) eqn:X; [discriminate|]. injection E as _ <-. lia.
  - (* Map *) inv_bind E. destruct x0 as [tk [y|]]; cbn [fst snd] in E.
    + injection E as _ <-. eapply tokenize_rst; eauto.
    + inv_bind E. discriminate.
  - (* Named *) exact (IH r Hw Hr s x s' I E).
  - (* Not *) inv_mark E. inv_bind E. inv_bind E. apply marker_inv in E1 as [E1 _]; [|lia]. destruct x0 as [y|].
    + inv_bind E. discriminate.
    + injection E as _ <-. auto.
  - (* Opt *) inv_bind E. discriminate.
  - (* Past *) inv_mark E. inv_bind E. eapply tail_rst; [|exact E]. lia.
  - (* Seq *) inv_mark E. eapply seq_rst; eauto. lia.
  - (* SkipSeq *) unfold skip_seq in E. inv_mark E. inv_bind E. inv_bind E. destruct x1 as [y|]; [|discriminate].
    inv_bind E. apply marker_inv in E2 as [E2 _]; [|lia]. injection E as _ <-. auto.
  - (* Times *) apply orb_true_iff in Hr as [Hr|Hr].
    + replace (Z.to_nat n0) with 0%nat in E by lia. discriminate.
    + apply andb_true_iff in Hr as [Hr1 Hr2]. replace (Z.to_nat n0) with 1%nat in E by lia. cbn [times_loop] in E.
      inv_bind E. destruct x0 as [y|]; [|discriminate]. injection E as _ <-. eapply IH; eauto.
  - (* To *) inv_mark E. inv_bind E. eapply tail_rst; [|exact E]. lia.
  - (* Uint *) inv_bind E. destruct (read_uint_total base bits s I) as (v & y & s2 & X & _ & _ & _ & Y & _). rewrite E0 in X. injection X as -> ->.
    inv_bind E. injection E1 as _ <-. cbn [snd] in E. injection E as -> <-. rewrite (Y ltac:(discriminate)). auto.
  - (* Zom *) inv_bind E. discriminate.
  - (* Pick *) inv_bind E. destruct x0 as [tk [y|]]; cbn [fst snd] in E.
    + injection E as _ <-. eapply tokenize_rst; eauto.
    + inv_bind E. discriminate.
  - (* Monitor *) inv_mark E. inv_bind E. unfold gets in E0. injection E0 as <- <-. inv_bind E. injection E0 as _ <-.
    inv_bind E. inv_mark E. inv_bind E. injection E1 as _ <-. injection E as -> <-. cbn [sc pos with_heap].
    change (pos (sc s)) with (pos (sc (with_heap (put_log lg (snd (log_enter info (pos (sc s)) (get_log lg (hp s)))) (hp s)) s))).
    eapply IH; [| |exact I|exact E0]; auto.
  - (* Rule *) destruct (r_reader (get_rule e i)) as [sub|] eqn:X; [|discriminate].
    eapply IH; [| |exact I|exact E]; [eapply He; eauto|eapply HR; eauto].
  - (* RuleName *) inv_bind E. destruct x0 as [y|]; [|discriminate]. injection E as _ <-. eapply IH; eauto.
  - (* Grammar *) destruct (r_reader (get_rule e i)) as [sub|] eqn:X; [|discriminate].
    inv_bind E. destruct x0 as [y|]; [|discriminate]. injection E as _ <-.
    eapply IH; [| |exact I|exact E0]; [eapply He; eauto|eapply HR; eauto].
Qed.
End Fwd.
