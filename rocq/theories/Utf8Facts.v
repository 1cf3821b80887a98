(** Utf8Facts.v - the library functions on runes against the RFC 3629 spec. *)
From Verif Require Export BaseFacts GoStr Spec.

Ltac bzall :=
  repeat match goal with
  | |- context [bz (zb ?z)] => rewrite (bz_zb z) by lia
  end.

Ltac divs :=
  repeat match goal with
  | |- context [?a / ?b] =>
      let q := fresh "q" in let m := fresh "m" in
      pose proof (Z.div_mod a b ltac:(lia)); pose proof (Z.mod_pos_bound a b ltac:(lia));
      set (q := a / b) in *; set (m := a mod b) in *; clearbody q m
  end.

Lemma utf8_length r : is_scalar r ->
  length (utf8 r) = if r <? 0x80 then 1%nat else if r <? 0x800 then 2%nat
                    else if r <? 0x10000 then 3%nat else 4%nat.
Proof.
  intros _. unfold utf8.
  destruct (r <? 0x80); [reflexivity|]. destruct (r <? 0x800); [reflexivity|].
  destruct (r <? 0x10000); reflexivity.
Qed.

Lemma decode_utf8 r t : is_scalar r -> decode_rune (utf8 r ++ t) = (r, length (utf8 r)).
Proof.
  intros H. unfold is_scalar in H. unfold utf8.
  destruct (r <? 0x80) eqn:E1; [|destruct (r <? 0x800) eqn:E2; [|destruct (r <? 0x10000) eqn:E3]].
  - cbn -[bz zb]. bzall. rewrite E1. reflexivity.
  - cbn [app length].
    assert (0 <= r mod 64 < 64) by (apply Z.mod_pos_bound; lia).
    assert (2 <= r / 64 < 32) by (split; [apply Z.div_le_lower_bound|apply Z.div_lt_upper_bound]; lia).
    pose proof (Z.div_mod r 64 ltac:(lia)).
    unfold decode_rune, lead_info, in_byte. bzall.
    replace (192 + r / 64 <? 128) with false by lia.
    replace (192 + r / 64 <? 194) with false by lia.
    replace (192 + r / 64 <=? 223) with true by lia.
    cbn [length]. cbn [Nat.ltb Nat.leb].
    replace ((128 <=? 128 + r mod 64) && (128 + r mod 64 <=? 191)) with true by lia.
    cbn [negb]. f_equal. lia.
  - cbn [app length].
    assert (0 <= r mod 64 < 64) by (apply Z.mod_pos_bound; lia).
    assert (0 <= (r / 64) mod 64 < 64) by (apply Z.mod_pos_bound; lia).
    assert (0 <= r / 4096 < 16) by (split; [apply Z.div_le_lower_bound|apply Z.div_lt_upper_bound]; lia).
    pose proof (Z.div_mod r 64 ltac:(lia)).
    pose proof (Z.div_mod (r / 64) 64 ltac:(lia)).
    rewrite Z.div_div in H4 by lia. change (64 * 64) with 4096 in H4.
    unfold decode_rune, in_byte. bzall.
    replace (224 + r / 4096 <? 128) with false by lia.
    assert (L : exists lo hi, lead_info (224 + r / 4096) = Some (3%nat, lo, hi)
                /\ lo <= 128 + (r / 64) mod 64 <= hi).
    { unfold lead_info.
      replace (224 + r / 4096 <? 194) with false by lia.
      replace (224 + r / 4096 <=? 223) with false by lia.
      destruct (224 + r / 4096 =? 224) eqn:?; [do 2 eexists; split; [reflexivity|lia]|].
      destruct (224 + r / 4096 =? 237) eqn:?; [do 2 eexists; split; [reflexivity|lia]|].
      replace (224 + r / 4096 <=? 239) with true by lia.
      do 2 eexists; split; [reflexivity|lia]. }
    destruct L as (lo & hi & -> & L).
    cbn [length]. cbn [Nat.ltb Nat.leb].
    replace ((lo <=? 128 + (r / 64) mod 64) && (128 + (r / 64) mod 64 <=? hi)) with true by lia.
    replace ((128 <=? 128 + r mod 64) && (128 + r mod 64 <=? 191)) with true by lia.
    cbn [negb]. f_equal. lia.
  - cbn [app length].
    assert (0 <= r mod 64 < 64) by (apply Z.mod_pos_bound; lia).
    assert (0 <= (r / 64) mod 64 < 64) by (apply Z.mod_pos_bound; lia).
    assert (0 <= (r / 4096) mod 64 < 64) by (apply Z.mod_pos_bound; lia).
    assert (0 <= r / 262144 < 5) by (split; [apply Z.div_le_lower_bound|apply Z.div_lt_upper_bound]; lia).
    pose proof (Z.div_mod r 64 ltac:(lia)) as D1.
    pose proof (Z.div_mod (r / 64) 64 ltac:(lia)) as D2.
    pose proof (Z.div_mod (r / 4096) 64 ltac:(lia)) as D3.
    rewrite Z.div_div in D2 by lia. change (64 * 64) with 4096 in D2.
    rewrite Z.div_div in D3 by lia. change (4096 * 64) with 262144 in D3.
    unfold decode_rune, in_byte. bzall.
    replace (240 + r / 262144 <? 128) with false by lia.
    assert (L : exists lo hi, lead_info (240 + r / 262144) = Some (4%nat, lo, hi)
                /\ lo <= 128 + (r / 4096) mod 64 <= hi).
    { unfold lead_info.
      replace (240 + r / 262144 <? 194) with false by lia.
      replace (240 + r / 262144 <=? 223) with false by lia.
      replace (240 + r / 262144 =? 224) with false by lia.
      replace (240 + r / 262144 =? 237) with false by lia.
      replace (240 + r / 262144 <=? 239) with false by lia.
      destruct (240 + r / 262144 =? 240) eqn:?; [do 2 eexists; split; [reflexivity|lia]|].
      destruct (240 + r / 262144 <=? 243) eqn:?; [do 2 eexists; split; [reflexivity|lia]|].
      replace (240 + r / 262144 =? 244) with true by lia.
      do 2 eexists; split; [reflexivity|lia]. }
    destruct L as (lo & hi & -> & L).
    cbn [length]. cbn [Nat.ltb Nat.leb].
    replace ((lo <=? 128 + (r / 4096) mod 64) && (128 + (r / 4096) mod 64 <=? hi)) with true by lia.
    replace ((128 <=? 128 + (r / 64) mod 64) && (128 + (r / 64) mod 64 <=? 191)) with true by lia.
    replace ((128 <=? 128 + r mod 64) && (128 + r mod 64 <=? 191)) with true by lia.
    cbn [negb]. f_equal. lia.
Qed.

Lemma zb_eq z b : z = bz b -> zb z = b.
Proof. intros ->. apply zb_bz. Qed.

(** What DecodeRuneInString can answer on a non-empty string. *)
Lemma decode_cases s : s <> [] ->
  (exists r t, is_scalar r /\ s = utf8 r ++ t /\ decode_rune s = (r, length (utf8 r)))
  \/ (decode_rune s = (RuneError, 1%nat) /\ ill_formed_at s).
Proof.
  intros Hs.
  assert (K : (exists r t, is_scalar r /\ s = utf8 r ++ t) \/ decode_rune s = (RuneError, 1%nat)).
  { destruct s as [|b0 t0]; [congruence|]. clear Hs.
    pose proof (bz_range b0) as R0.
    unfold decode_rune.
    destruct (bz b0 <? 128) eqn:E0.
    { left. exists (bz b0), t0. split; [unfold is_scalar; lia|].
      unfold utf8. rewrite E0, zb_bz. reflexivity. }
    destruct (lead_info (bz b0)) as [[[sz lo] hi]|] eqn:EL; [|right; reflexivity].
    destruct (Nat.ltb (length (b0 :: t0)) sz) eqn:ES; [right; reflexivity|].
    destruct t0 as [|b1 t1]; [right; reflexivity|].
    pose proof (bz_range b1) as R1.
    destruct (in_byte lo b1 hi) eqn:E1; cbn [negb]; [|right; reflexivity].
    unfold in_byte in E1.
    destruct (Nat.leb sz 2) eqn:ES2.
    { left. exists ((bz b0 - 0xC0) * 64 + (bz b1 - 0x80)), t1.
      assert (P : 194 <= bz b0 <= 223 /\ lo = 128 /\ hi = 191).
      { unfold lead_info in EL.
        repeat match type of EL with context [if ?c then _ else _] => destruct c eqn:? end;
        inversion EL; subst; try discriminate; lia. }
      split; [unfold is_scalar; lia|].
      set (r := (bz b0 - 0xC0) * 64 + (bz b1 - 0x80)).
      assert (Q : r / 64 = bz b0 - 192 /\ r mod 64 = bz b1 - 128).
      { split; symmetry; [apply Z.div_unique with (bz b1 - 128)|apply Z.mod_unique with (bz b0 - 192)]; subst r; lia. }
      destruct Q as [Q1 Q2].
      unfold utf8. replace (r <? 128) with false by lia.
      replace (r <? 2048) with true by lia.
      rewrite Q1, Q2. cbn [app]. f_equal; [|f_equal]; symmetry; apply zb_eq; lia. }
    destruct t1 as [|b2 t2]; [right; reflexivity|].
    pose proof (bz_range b2) as R2.
    destruct (in_byte 128 b2 191) eqn:E2; cbn [negb]; [|right; reflexivity].
    unfold in_byte in E2.
    destruct (Nat.leb sz 3) eqn:ES3.
    { left. set (r := (bz b0 - 0xE0) * 4096 + (bz b1 - 0x80) * 64 + (bz b2 - 0x80)).
      exists r, t2.
      assert (P : 224 <= bz b0 <= 239 /\ 128 <= lo /\ hi <= 191 /\
                  (bz b0 = 224 -> lo = 160) /\ (bz b0 = 237 -> hi = 159)).
      { unfold lead_info in EL.
        repeat match type of EL with context [if ?c then _ else _] => destruct c eqn:? end;
        inversion EL; subst; try discriminate; lia. }
      assert (B : 2048 <= r < 65536 /\ is_scalar r) by (unfold is_scalar; subst r; lia).
      split; [tauto|].
      assert (Q1 : r / 64 = (bz b0 - 224) * 64 + (bz b1 - 128))
        by (symmetry; apply Z.div_unique with (bz b2 - 128); subst r; lia).
      assert (Q2 : r mod 64 = bz b2 - 128)
        by (symmetry; apply Z.mod_unique with ((bz b0 - 224) * 64 + (bz b1 - 128)); subst r; lia).
      assert (Q3 : r / 4096 = bz b0 - 224)
        by (symmetry; apply Z.div_unique with ((bz b1 - 128) * 64 + (bz b2 - 128)); subst r; lia).
      assert (Q4 : (r / 64) mod 64 = bz b1 - 128)
        by (rewrite Q1; symmetry; apply Z.mod_unique with (bz b0 - 224); lia).
      unfold utf8. replace (r <? 128) with false by lia.
      replace (r <? 2048) with false by lia.
      replace (r <? 65536) with true by lia.
      rewrite Q4, Q2, Q3. cbn [app]. f_equal; [|f_equal; [|f_equal]]; symmetry; apply zb_eq; lia. }
    destruct t2 as [|b3 t3]; [right; reflexivity|].
    pose proof (bz_range b3) as R3.
    destruct (in_byte 128 b3 191) eqn:E3; cbn [negb]; [|right; reflexivity].
    unfold in_byte in E3.
    left. set (r := (bz b0 - 0xF0) * 262144 + (bz b1 - 0x80) * 4096 + (bz b2 - 0x80) * 64 + (bz b3 - 0x80)).
    exists r, t3.
    assert (P : 240 <= bz b0 <= 244 /\ 128 <= lo /\ hi <= 191 /\
                (bz b0 = 240 -> lo = 144) /\ (bz b0 = 244 -> hi = 143)).
    { unfold lead_info in EL.
      repeat match type of EL with context [if ?c then _ else _] => destruct c eqn:? end;
      inversion EL; subst; try discriminate; lia. }
    assert (B : 65536 <= r <= 0x10FFFF /\ is_scalar r) by (unfold is_scalar; subst r; lia).
    split; [tauto|].
    assert (Q1 : r / 64 = (bz b0 - 240) * 4096 + (bz b1 - 128) * 64 + (bz b2 - 128))
      by (symmetry; apply Z.div_unique with (bz b3 - 128); subst r; lia).
    assert (Q2 : r mod 64 = bz b3 - 128)
      by (symmetry; apply Z.mod_unique with ((bz b0 - 240) * 4096 + (bz b1 - 128) * 64 + (bz b2 - 128)); subst r; lia).
    assert (Q3 : r / 4096 = (bz b0 - 240) * 64 + (bz b1 - 128))
      by (symmetry; apply Z.div_unique with ((bz b2 - 128) * 64 + (bz b3 - 128)); subst r; lia).
    assert (Q5 : r / 262144 = bz b0 - 240)
      by (symmetry; apply Z.div_unique with ((bz b1 - 128) * 4096 + (bz b2 - 128) * 64 + (bz b3 - 128)); subst r; lia).
    assert (Q4 : (r / 64) mod 64 = bz b2 - 128)
      by (rewrite Q1; symmetry; apply Z.mod_unique with ((bz b0 - 240) * 64 + (bz b1 - 128)); lia).
    assert (Q6 : (r / 4096) mod 64 = bz b1 - 128)
      by (rewrite Q3; symmetry; apply Z.mod_unique with (bz b0 - 240); lia).
    unfold utf8. replace (r <? 128) with false by lia.
    replace (r <? 2048) with false by lia.
    replace (r <? 65536) with false by lia.
    rewrite Q4, Q2, Q5, Q6. cbn [app].
    f_equal; [|f_equal; [|f_equal; [|f_equal]]]; symmetry; apply zb_eq; lia. }
  destruct K as [(r & t & H & ->) | K].
  - left. exists r, t. split; [auto|]. split; [auto|]. apply decode_utf8. exact H.
  - destruct (decode_rune s) as [r w] eqn:E.
    destruct (Z.eq_dec r 0xFFFD) as [Hr|Hr];
      [|inversion K; subst; contradiction Hr; reflexivity].
    right. split; [exact K|].
    intros r' t H ->. rewrite decode_utf8 in E by exact H. inversion E; subst.
    inversion K.
Qed.

Lemma utf8_nonnil r : utf8 r <> [].
Proof. unfold utf8. destruct (r <? 128), (r <? 2048), (r <? 65536); discriminate. Qed.

Lemma utf8_slen_pos r : 1 <= slen (utf8 r) <= 4.
Proof.
  unfold utf8, slen. destruct (r <? 128), (r <? 2048), (r <? 65536); cbn [length]; lia.
Qed.

Lemma utf8_length_pos r : (1 <= length (utf8 r) <= 4)%nat.
Proof. pose proof (utf8_slen_pos r). unfold slen in *. lia. Qed.

Lemma decode_bad b s : ill_formed_at (b :: s) -> decode_rune (b :: s) = (RuneError, 1%nat).
Proof.
  intros H. destruct (decode_cases (b :: s) ltac:(discriminate)) as [(r & t & Hr & E & _)|[E _]].
  - destruct (H r t Hr E).
  - exact E.
Qed.

Lemma utf8_prefix_free r r' t t' : is_scalar r -> is_scalar r' ->
  utf8 r ++ t = utf8 r' ++ t' -> r = r' /\ t = t'.
Proof.
  intros H H' E.
  pose proof (decode_utf8 r t H) as D. rewrite E, decode_utf8 in D by exact H'.
  inversion D. subst. split; auto. apply app_inv_head in E. exact E.
Qed.

(** Chunks: every string has exactly one chunking. *)
Lemma chunked_exists s : exists l, chunked s l.
Proof.
  remember (length s) as n eqn:E. assert (L : (length s <= n)%nat) by lia. clear E.
  revert s L. induction n as [|n IH]; intros s L.
  - destruct s; [|cbn in L; lia]. exists []. constructor.
  - destruct s as [|b t]; [exists []; constructor|].
    destruct (decode_cases (b :: t) ltac:(discriminate)) as [(r & t' & Hr & E & _)|[_ H]].
    + destruct (IH t') as [l Hl].
      { apply (f_equal (@length _)) in E. rewrite app_length in E.
        pose proof (utf8_length_pos r). cbn in *. lia. }
      exists ((r, utf8 r) :: l). rewrite E. constructor; auto.
    + destruct (IH t) as [l Hl]; [cbn in L; lia|].
      exists ((0xFFFD, [b]) :: l). constructor; auto.
Qed.

Lemma chunked_nil_inv l : chunked [] l -> l = [].
Proof.
  inversion 1 as [|r s l' Hr Hc E|]; auto.
  apply (f_equal (@length _)) in E. rewrite app_length in E.
  pose proof (utf8_length_pos r). cbn in E. lia.
Qed.

Lemma chunked_bytes s l : chunked s l -> chunk_bytes l = s.
Proof.
  induction 1; cbn; auto.
  - unfold chunk_bytes in *. rewrite IHchunked. reflexivity.
  - unfold chunk_bytes in *. rewrite IHchunked. reflexivity.
Qed.

Lemma chunked_cons_inv s r c l : chunked s ((r, c) :: l) ->
  exists t, s = c ++ t /\ chunked t l /\ decode_rune s = (r, length c) /\ c <> [] /\
    ((is_scalar r /\ c = utf8 r) \/ (r = RuneError /\ length c = 1%nat /\ ill_formed_at s)).
Proof.
  inversion 1; subst.
  - exists s0. split; auto. split; auto. split; [apply decode_utf8; auto|].
    split; [apply utf8_nonnil|]. auto.
  - exists s0. split; auto. split; auto. split; [apply decode_bad; auto|].
    split; [discriminate|]. auto.
Qed.

Lemma chunked_nil_r s : chunked s [] -> s = [].
Proof. inversion 1; auto. Qed.

Lemma chunked_fun s l l' : chunked s l -> chunked s l' -> l = l'.
Proof.
  revert s l'. induction l as [|[r c] l IH]; intros s l' H H'.
  - apply chunked_nil_r in H. subst. apply chunked_nil_inv in H'. auto.
  - destruct l' as [|[r' c'] l'].
    + apply chunked_nil_r in H'. subst. apply chunked_nil_inv in H. auto.
    + apply chunked_cons_inv in H as (t & -> & Ht & D & _).
      apply chunked_cons_inv in H' as (t' & E & Ht' & D' & _).
      rewrite D in D'. inversion D'; subst.
      apply app_inv_len in E as [-> ->]; auto. f_equal. eapply IH; eauto.
Qed.

Lemma chunked_app_inv l1 : forall s l2, chunked s (l1 ++ l2) ->
  exists s1 s2, s = s1 ++ s2 /\ chunked s2 l2 /\ s1 = chunk_bytes l1.
Proof.
  induction l1 as [|[r c] l1 IH]; intros s l2 H.
  - exists [], s. auto.
  - apply chunked_cons_inv in H as (t & -> & Ht & _).
    apply IH in Ht as (s1 & s2 & -> & H2 & ->).
    exists (c ++ chunk_bytes l1), s2. split; [apply app_assoc|]. auto.
Qed.

Lemma chunked_decode s r c l : chunked s ((r, c) :: l) -> decode_rune s = (r, length c).
Proof. intros H. apply chunked_cons_inv in H as (t & _ & _ & D & _). exact D. Qed.

Lemma utf8s_app a b : utf8s (a ++ b) = utf8s a ++ utf8s b.
Proof. apply flat_map_app. Qed.

Lemma chunked_utf8s rs : Forall is_scalar rs ->
  chunked (utf8s rs) (map (fun r => (r, utf8 r)) rs).
Proof.
  induction 1; cbn.
  - constructor.
  - constructor; auto.
Qed.

(** Range loops *)
Fixpoint indexed (i : Z) (l : list (Z * bytes)) : list (Z * Z) :=
  match l with
  | [] => []
  | (r, c) :: t => (i, r) :: indexed (i + slen c) t
  end.

Lemma range_from_skip c : forall t i,
  range_from (c ++ t) (length c) i = range_from t 0 (i + slen c).
Proof.
  induction c as [|b c IH]; intros t i.
  - cbn [app length]. rewrite slen_nil, Z.add_0_r. reflexivity.
  - cbn [app length range_from]. rewrite IH, slen_cons. f_equal. lia.
Qed.

Lemma range_from_chunked s l : chunked s l -> forall i, range_from s 0 i = indexed i l.
Proof.
  revert s. induction l as [|[r c] l IH]; intros s H i.
  - apply chunked_nil_r in H. subst. reflexivity.
  - apply chunked_cons_inv in H as (t & -> & Ht & D & N & _).
    destruct c as [|b c]; [congruence|].
    cbn [app] in *. cbn [range_from]. rewrite D. cbn [length Nat.pred].
    rewrite range_from_skip. cbn [indexed]. f_equal. rewrite (IH _ Ht). f_equal.
    rewrite slen_cons. lia.
Qed.

Lemma range_str_chunked s l : chunked s l -> range_str s = indexed 0 l.
Proof. intros H. apply range_from_chunked. exact H. Qed.

Lemma indexed_snd l : forall i, map snd (indexed i l) = map fst l.
Proof. induction l as [|[r c] l IH]; intros i; cbn; auto. rewrite IH. reflexivity. Qed.

Lemma runes_chunked s l : chunked s l -> runes s = map fst l.
Proof. intros H. unfold runes. rewrite (range_str_chunked _ _ H). apply indexed_snd. Qed.

(** Decoding from the end *)
Lemma utf8_shape r : is_scalar r ->
  exists b c, utf8 r = b :: c /\ rune_start b = true /\ Forall (fun x => rune_start x = false) c
    /\ (c <> [] -> 0x80 <= bz b) /\ (c = [] -> bz b < 0x80).
Proof.
  intros H. unfold is_scalar in H. unfold utf8, rune_start, in_byte.
  destruct (r <? 0x80) eqn:E1; [|destruct (r <? 0x800) eqn:E2; [|destruct (r <? 0x10000) eqn:E3]].
  - eexists _, []. split; [reflexivity|]. bzall. repeat split; try lia; try constructor; congruence.
  - assert (0 <= r mod 64 < 64) by (apply Z.mod_pos_bound; lia).
    assert (2 <= r / 64 < 32) by (split; [apply Z.div_le_lower_bound|apply Z.div_lt_upper_bound]; lia).
    eexists _, [_]. split; [reflexivity|].
    repeat split; try congruence; repeat constructor; bzall; lia.
  - assert (0 <= r mod 64 < 64) by (apply Z.mod_pos_bound; lia).
    assert (0 <= (r / 64) mod 64 < 64) by (apply Z.mod_pos_bound; lia).
    assert (0 <= r / 4096 < 16) by (split; [apply Z.div_le_lower_bound|apply Z.div_lt_upper_bound]; lia).
    eexists _, [_; _]. split; [reflexivity|].
    repeat split; try congruence; repeat constructor; bzall; lia.
  - assert (0 <= r mod 64 < 64) by (apply Z.mod_pos_bound; lia).
    assert (0 <= (r / 64) mod 64 < 64) by (apply Z.mod_pos_bound; lia).
    assert (0 <= (r / 4096) mod 64 < 64) by (apply Z.mod_pos_bound; lia).
    assert (0 <= r / 262144 < 5) by (split; [apply Z.div_le_lower_bound|apply Z.div_lt_upper_bound]; lia).
    eexists _, [_; _; _]. split; [reflexivity|].
    repeat split; try congruence; repeat constructor; bzall; lia.
Qed.

Lemma last_start_spec k : forall s start lim,
  0 <= lim -> start - lim + 1 <= Z.of_nat k -> lim - 1 <= start ->
  let p := last_start k s start lim in
  lim - 1 <= p <= start /\
  (lim <= p -> rune_start (nth (Z.to_nat p) s x00) = true) /\
  (forall q, p < q <= start -> rune_start (nth (Z.to_nat q) s x00) = false).
Proof.
  induction k as [|k IH]; intros s start lim H0 Hk Hl; cbn zeta; cbn [last_start].
  - split; [lia|]. split; [lia|]. intros; lia.
  - destruct (start <? lim) eqn:E.
    + split; [lia|]. split; [lia|]. intros; lia.
    + destruct (rune_start (nth (Z.to_nat start) s x00)) eqn:R.
      * split; [lia|]. split; [auto|]. intros; lia.
      * destruct (IH s (start - 1) lim) as (A & B & C); try lia.
        split; [lia|]. split; [auto|].
        intros q Hq. destruct (Z.eq_dec q start) as [->|]; auto. apply C. lia.
Qed.

Lemma nth_app_slen (h t : bytes) q d : 0 <= q ->
  nth (Z.to_nat (slen h + q)) (h ++ t) d = nth (Z.to_nat q) t d.
Proof.
  intros H. unfold slen. rewrite app_nth2 by lia. f_equal. lia.
Qed.

Lemma decode_last_utf8 h r : is_scalar r ->
  decode_last_rune (h ++ utf8 r) = (r, length (utf8 r)).
Proof.
  intros H. destruct (utf8_shape r H) as (b & c & E & Hb & Hc & Hm & Hn).
  unfold decode_last_rune. rewrite slen_app.
  pose proof (utf8_slen_pos r) as L. pose proof (slen_nonneg h) as Lh.
  replace (slen h + slen (utf8 r) =? 0) with false by lia.
  destruct c as [|c0 c'].
  - rewrite E. change (slen [b]) with 1.
    replace (slen h + 1 - 1) with (slen h + 0) by lia.
    rewrite nth_app_slen by lia. change (nth (Z.to_nat 0) [b] x00) with b.
    specialize (Hn eq_refl). replace (bz b <? 128) with true by lia.
    f_equal. unfold is_scalar in H. unfold utf8 in E.
    destruct (r <? 128) eqn:E1.
    + injection E as <-. rewrite bz_zb by lia. reflexivity.
    + destruct (r <? 2048), (r <? 65536); discriminate.
  - set (c := c0 :: c') in *.
    assert (Lc : slen (utf8 r) = slen c + 1) by (rewrite E; apply slen_cons).
    assert (N : forall q, 0 <= q < slen c ->
        rune_start (nth (Z.to_nat (slen h + (q + 1))) (h ++ utf8 r) x00) = false).
    { intros q Hq. rewrite nth_app_slen by lia. rewrite E.
      replace (Z.to_nat (q + 1)) with (S (Z.to_nat q)) by lia. cbn [nth].
      rewrite Forall_forall in Hc. apply Hc. apply nth_In. unfold slen in *. lia. }
    assert (N0 : nth (Z.to_nat (slen h + 0)) (h ++ utf8 r) x00 = b).
    { rewrite nth_app_slen by lia. rewrite E. reflexivity. }
    assert (Sc : 1 <= slen c) by (subst c; rewrite slen_cons; pose proof (slen_nonneg c'); lia).
    assert (LB : bz (nth (Z.to_nat (slen h + slen (utf8 r) - 1)) (h ++ utf8 r) x00) <? 128 = false).
    { specialize (N (slen c - 1) ltac:(lia)).
      replace (slen h + (slen c - 1 + 1)) with (slen h + slen (utf8 r) - 1) in N by lia.
      unfold rune_start, in_byte in N. lia. }
    rewrite LB.
    set (lim := Z.max 0 (slen h + slen (utf8 r) - 4)).
    destruct (last_start_spec 5 (h ++ utf8 r) (slen h + slen (utf8 r) - 1 - 1) lim)
      as (A & B & C); try lia.
    set (p := last_start 5 (h ++ utf8 r) (slen h + slen (utf8 r) - 1 - 1) lim) in *.
    assert (P : p = slen h).
    { destruct (Z.lt_trichotomy p (slen h)) as [P|[P|P]]; auto; exfalso.
      - specialize (C (slen h + 0) ltac:(lia)). rewrite N0 in C. congruence.
      - specialize (N (p - slen h - 1) ltac:(lia)).
        replace (slen h + (p - slen h - 1 + 1)) with p in N by lia.
        rewrite B in N by lia. discriminate. }
    rewrite P. rewrite Z.max_r by lia.
    replace (slice (h ++ utf8 r) (slen h) (slen h + slen (utf8 r))) with (utf8 r).
    2:{ rewrite <- (app_nil_r (utf8 r)) at 2. symmetry. apply slice_app. }
    rewrite <- (app_nil_r (utf8 r)) at 1. rewrite decode_utf8 by exact H.
    rewrite slen_length. rewrite Z.eqb_refl. reflexivity.
Qed.

Lemma decode_last_cases s : s <> [] ->
  (exists r h, is_scalar r /\ s = h ++ utf8 r /\ decode_last_rune s = (r, length (utf8 r)))
  \/ (decode_last_rune s = (RuneError, 1%nat) /\ forall r h, is_scalar r -> s <> h ++ utf8 r).
Proof.
  intros Hs.
  assert (K : (exists r h, is_scalar r /\ s = h ++ utf8 r) \/ decode_last_rune s = (RuneError, 1%nat)).
  { unfold decode_last_rune.
    assert (0 < slen s) by (destruct s; [congruence|rewrite slen_cons; pose proof (slen_nonneg s); lia]).
    replace (slen s =? 0) with false by lia.
    destruct (bz (nth (Z.to_nat (slen s - 1)) s x00) <? 128) eqn:E1.
    - left. destruct (exists_last Hs) as (h & x & ->).
      rewrite slen_app in E1. change (slen [x]) with 1 in E1.
      replace (slen h + 1 - 1) with (slen h + 0) in E1 by lia.
      rewrite nth_app_slen in E1 by lia. change (nth (Z.to_nat 0) [x] x00) with x in E1.
      exists (bz x), h. pose proof (bz_range x). split; [unfold is_scalar; lia|].
      unfold utf8. rewrite E1, zb_bz. reflexivity.
    - set (lim := Z.max 0 (slen s - 4)).
      destruct (last_start_spec 5 s (slen s - 1 - 1) lim) as (A & _ & _); try lia.
      set (p := Z.max 0 (last_start 5 s (slen s - 1 - 1) lim)) in *.
      assert (Hp : 0 <= p < slen s) by lia.
      destruct (decode_rune (slice s p (slen s))) as [r w] eqn:ED.
      destruct (p + Z.of_nat w =? slen s) eqn:EW; [|right; reflexivity].
      assert (SL : slice s p (slen s) = skipn (Z.to_nat p) s).
      { unfold slice. apply firstn_all2. rewrite skipn_length. unfold slen. lia. }
      rewrite SL in ED.
      assert (NN : skipn (Z.to_nat p) s <> []).
      { intros X. apply (f_equal (@length _)) in X. rewrite skipn_length in X. unfold slen in *. cbn in X. lia. }
      destruct (decode_cases _ NN) as [(r' & t & Hr & E & D)|[D _]].
      + rewrite ED in D. inversion D. subst r' w. left. exists r, (firstn (Z.to_nat p) s).
        split; [exact Hr|].
        assert (t = []).
        { apply (f_equal slen) in E. rewrite slen_app in E. apply slen_zero.
          unfold slen in *. rewrite skipn_length in E. lia. }
        subst t. rewrite app_nil_r in E. rewrite <- E. symmetry. apply firstn_skipn.
      + rewrite ED in D. inversion D; subst. right. reflexivity. }
  destruct K as [(r & h & H & ->)|K].
  - left. exists r, h. split; auto. split; auto. apply decode_last_utf8. exact H.
  - right. split; [exact K|]. intros r h H ->. rewrite decode_last_utf8 in K by exact H.
    injection K as E1 E2. rewrite E1 in E2. discriminate E2.
Qed.
