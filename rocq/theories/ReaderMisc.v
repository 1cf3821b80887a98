(** ReaderMisc.v - invalid readers (C57) and rune sets (C58). *)
From Verif Require Export ReaderScan.
From Coq Require Import Lia ZifyBool.

(* ------------------------------------------------------ invalid readers *)

(** An invalid reader stands somewhere in [r], not hidden behind a name. *)
Inductive exposed : reader -> Prop :=
| ex_invalid msg : exposed (RInvalid msg)
| ex_any rs r : In r rs -> exposed r -> exposed (RAny rs)
| ex_seq rs r : In r rs -> exposed r -> exposed (RSeq rs)
| ex_skip_seq sk rs r : In r (sk :: rs) -> exposed r -> exposed (RSkipSeq sk rs)
| ex_many r : exposed r -> exposed (RMany r)
| ex_zom r : exposed r -> exposed (RZom r)
| ex_opt r : exposed r -> exposed (ROpt r)
| ex_to r : exposed r -> exposed (RTo r)
| ex_past r : exposed r -> exposed (RPast r)
| ex_at r : exposed r -> exposed (RAt r)
| ex_not r : exposed r -> exposed (RNot r)
| ex_times n r : exposed r -> exposed (RTimes n r)
| ex_body r b t : In r [b; t] -> exposed r -> exposed (RBody b t)
| ex_body_tail r b t : In r [b; t] -> exposed r -> exposed (RBodyTail b t)
| ex_map i r : exposed r -> exposed (RMap i r)
| ex_pick x i r : exposed r -> exposed (RPick x i r)
| ex_monitor x i r : exposed r -> exposed (RMonitor x i r)
| ex_janus c w r : exposed r -> exposed (RJanusBeg c w r).

Definition shows (str : bytes) : Prop := exists a b, str = a ++ invalid_marker ++ b.
Lemma shows_iff str : has_invalid_reader str = true <-> shows str.
Proof. apply contains_iff. Qed.
Lemma shows_app x y z : shows y -> shows (x ++ y ++ z).
Proof. intros (a & b & ->). exists (x ++ a), (b ++ z). rewrite <- !app_assoc. reflexivity. Qed.
Lemma shows_r x y : shows y -> shows (x ++ y).
Proof. intros H. rewrite <- (app_nil_r y). apply shows_app; auto. Qed.
Lemma shows_l y z : shows y -> shows (y ++ z).
Proof. intros H. apply (shows_app [] y z H). Qed.
Lemma shows_join sep l x : In x l -> shows x -> shows (join l sep).
Proof.
  intros H Hx. induction l as [|y l IH]; [destruct H|]. destruct H as [->|H].
  - destruct l; cbn [join]; [auto|]. apply shows_l; auto.
  - destruct l as [|z l]; [destruct H|]. cbn [join] in *. apply shows_r, shows_r. auto.
Qed.
Lemma exposed_shows {L : GoLib} e r : exposed r -> shows (what e r).
Proof.
  assert (W : forall rs, (fix whats (rs : list reader) : list bytes := match rs with [] => [] | x :: t => what e x :: whats t end) rs = map (what e) rs).
  { induction rs; cbn; congruence. }
  induction 1; cbn [what]; rewrite ?W; auto;
    try (repeat first [assumption | apply shows_r]; fail).
  - exists [], (lit "{" ++ msg ++ lit "}"). reflexivity.
  - apply shows_app, (shows_join _ _ (what e r)); auto. apply in_map; auto.
  - apply (shows_join _ _ (what e r)); auto. apply in_map; auto.
  - destruct H as [->|H].
    + eapply shows_join; [left; reflexivity|]. apply shows_app; auto.
    + eapply (shows_join _ _ (what e r)); auto. right. apply in_app_iff. left. apply in_map; auto.
  - destruct H as [->|[->|[]]]; [apply shows_app; auto|]. apply shows_r, shows_r, shows_r, shows_l. auto.
  - destruct H as [->|[->|[]]]; [apply shows_app; auto|]. apply shows_r, shows_r, shows_r, shows_l. auto.
Qed.
Lemma invalid_reads {L : GoLib} e msg s : reads e (RInvalid msg) s (Some (EOther (lit "INVALID-READER: " ++ msg))) s.
Proof. exists 1%nat. reflexivity. Qed.

Lemma as_readers_spec fname l : forall i acc,
  match as_readers fname i l acc with
  | inl rs => exists rs', rs = acc ++ rs' /\ map Some rs' = map as_reader l
  | inr r => (exists a, In a l /\ as_reader a = None) /\ exists msg, r = RInvalid msg
  end.
Proof.
  induction l as [|a l IH]; intros i acc; cbn [as_readers]; [exists []; rewrite app_nil_r; auto|].
  destruct (as_reader a) as [r|] eqn:E.
  - specialize (IH (i + 1) (acc ++ [r])). destruct (as_readers fname (i + 1) l (acc ++ [r])).
    + destruct IH as (rs' & -> & H). exists (r :: rs'). rewrite <- app_assoc. split; auto. cbn. rewrite E, H. auto.
    + destruct IH as ((b & B1 & B2) & H). split; auto. exists b. split; auto. right; auto.
  - split; [exists a; split; [left|]; auto|eauto].
Qed.
(** What Any/Seq/SkipSeq make of their arguments. *)
Definition list_built (k : list reader -> reader) (l : list arg) (r : reader) : Prop :=
  (exists rs, map Some rs = map as_reader l /\ r = k rs) \/
  ((exists a, In a l /\ as_reader a = None) /\ exists msg, r = RInvalid msg).
Lemma built fname k l : list_built k l (match as_readers fname 0 l [] with inl rs => k rs | inr x => x end).
Proof.
  pose proof (as_readers_spec fname l 0 []) as H. destruct (as_readers fname 0 l []).
  - destruct H as (rs & -> & H). left. exists rs. auto.
  - right. auto.
Qed.

(* ------------------------------------------------------------ rune sets *)

Fixpoint dashed (l : list (Z * Z)) : list Z :=
  match l with [] => [] | (a, b) :: t => a :: 0x2D :: b :: dashed t end.
Fixpoint paired (l : list (Z * Z)) : list Z :=
  match l with [] => [] | (a, b) :: t => a :: b :: paired t end.
Lemma ranges3_some l : ranges3 (dashed l) = Some l.
Proof. induction l as [|[a b] l IH]; cbn; [auto|]. rewrite IH. auto. Qed.
Lemma ranges3_inv : forall k rs l, (length rs <= k)%nat -> ranges3 rs = Some l -> rs = dashed l.
Proof.
  induction k as [|k IH]; intros rs l Le H; (destruct rs as [|a [|d [|b rs]]]; cbn in *; try discriminate; [injection H as <-; auto|]); try lia.
  destruct (d =? 45) eqn:D; [|discriminate]. destruct (ranges3 rs) eqn:E; [|discriminate]. injection H as <-. cbn. f_equal. f_equal; [lia|]. f_equal. apply IH; auto. lia.
Qed.
Lemma ranges2_some l : ranges2 (paired l) = Some l.
Proof. induction l as [|[a b] l IH]; cbn; [auto|]. rewrite IH. auto. Qed.
Lemma ranges2_inv : forall k rs l, (length rs <= k)%nat -> ranges2 rs = Some l -> rs = paired l.
Proof.
  induction k as [|k IH]; intros rs l Le H; (destruct rs as [|a [|b rs]]; cbn in *; try discriminate; [injection H as <-; auto|]); try lia.
  destruct (ranges2 rs) eqn:E; [|discriminate]. injection H as <-. cbn. f_equal. f_equal. apply IH; auto. lia.
Qed.
Lemma ranges2_even rs : ranges2 rs = None -> Nat.odd (length rs) = true.
Proof.
  assert (G : forall k rs, (length rs <= k)%nat -> ranges2 rs = None -> Nat.odd (length rs) = true).
  { induction k as [|k IH]; intros [|a [|b t]] Le H; cbn in *; try discriminate; try lia; auto.
    destruct (ranges2 t) eqn:E; [discriminate|]. apply IH; auto. lia. }
  apply (G (length rs)); auto.
Qed.
(** The runes of the ranges and singles. *)
Definition in_ranges (l : list (Z * Z)) (v : Z) : Prop := exists a b, In (a, b) l /\ a <= v <= b.
Definition in_set (l : list (Z * Z)) (singles : list Z) (v : Z) : Prop := in_ranges l v \/ In v singles.

Lemma between_any_loop_spec s a b l ranges : at_split s a b -> chunked b l ->
  one_rune (in_ranges ranges) (between_any_loop ranges) s l.
Proof.
  intros H C. assert (Mv : forall mn mx, one_rune (fun v => mn <= v <= mx) (if_between mn mx) s l) by (intros; eapply if_between_spec; eauto).
  induction ranges as [|[mn mx] ranges IH]; cbn [between_any_loop].
  - destruct l as [|[v c] l]; [reflexivity|]. split; [intros (x & y & [] & _)|reflexivity].
  - specialize (Mv mn mx). destruct l as [|[v c] l]; cbn in *.
    + unfold no, bind in *. rewrite Mv. auto.
    + destruct Mv as [M1 M2], IH as [I1 I2]. unfold yes_by, no, bind in *.
      destruct (Z_le_gt_dec mn v); [destruct (Z_le_gt_dec v mx)|].
      * rewrite M1 by lia. split; auto. intros N. exfalso. apply N. exists mn, mx. split; [left; auto|lia].
      * rewrite M2 by lia. split; intros X; [apply I1|apply I2].
        -- destruct X as (x & y & [E|X] & B); [injection E as <- <-; lia|exists x, y; auto].
        -- intros (x & y & X1 & X2). apply X. exists x, y. split; auto. right; auto.
      * rewrite M2 by lia. split; intros X; [apply I1|apply I2].
        -- destruct X as (x & y & [E|X] & B); [injection E as <- <-; lia|exists x, y; auto].
        -- intros (x & y & X1 & X2). apply X. exists x, y. split; auto. right; auto.
Qed.

(** [r] reads exactly one rune that satisfies P, [l] are the chunks behind the scanner. *)
Definition reads_one {L : GoLib} (e : env) (r : reader) (P : Z -> Prop) (s : st) (l : list (Z * bytes)) : Prop :=
  match l with
  | [] => exists x s', reads e r s (Some x) s' /\ pos (sc s') = pos (sc s)
  | (v, c) :: _ =>
    (P v -> exists s', reads e r s None s' /\ pos (sc s') = pos (sc s) + slen c) /\
    (~ P v -> exists x s', reads e r s (Some x) s' /\ pos (sc s') = pos (sc s))
  end.
Lemma set_reads_one {L : GoLib} e s a b l ranges singles ls : at_split s a b -> chunked b l -> chunked singles ls ->
  l <> [] \/ ~ In 0xFFFD (map fst ls) ->
  reads_one e (RBetweenAny ranges singles) (in_set ranges (map fst ls)) s l.
Proof.
  intros H C Cs Ne. pose proof (between_any_loop_spec s a b l ranges H C) as B.
  pose proof (if_any_rune_spec s a b l singles ls H C Cs Ne) as A. pose proof (in_text_split _ _ _ H) as [I _].
  assert (No : no (between_any_loop ranges) s -> no (if_any_rune singles) s ->
    exists x s', reads e (RBetweenAny ranges singles) s (Some x) s' /\ pos (sc s') = pos (sc s)).
  { intros N1 N2. eexists. eexists. split.
    - exists 1%nat. cbn [read]. unfold no, bind, mark, gets in *. rewrite N1, N2, to_marker_nonneg by lia. reflexivity.
    - reflexivity. }
  destruct l as [|[v c] l]; cbn in *; auto.
  destruct A as [A1 A2], B as [B1 B2]. split.
  - intros P. destruct (in_dec Z.eq_dec v (map fst ls)) as [D|D].
    + destruct (existsb (fun p => (fst p <=? v) && (v <=? snd p)) ranges) eqn:R.
      * apply existsb_exists in R as ([x y] & R1 & R2). cbn in R2. eexists. split.
        -- exists 1%nat. cbn [read]. unfold bind, mark, gets. rewrite B1 by (exists x, y; split; auto; lia). reflexivity.
        -- reflexivity.
      * assert (N : no (between_any_loop ranges) s).
        { apply B2. intros (x & y & X1 & X2). assert (existsb (fun p => (fst p <=? v) && (v <=? snd p)) ranges = true); [|congruence].
          apply existsb_exists. exists (x, y). split; auto. cbn. lia. }
        eexists. split.
        -- exists 1%nat. cbn [read]. unfold bind, mark, gets. unfold no in N. rewrite N, A1 by auto. reflexivity.
        -- reflexivity.
    + destruct P as [P|P]; [|contradiction]. eexists. split.
      * exists 1%nat. cbn [read]. unfold bind, mark, gets. rewrite B1 by auto. reflexivity.
      * reflexivity.
  - intros P. apply No; [apply B2|apply A2]; intros X; apply P; [left|right]; auto.
Qed.
