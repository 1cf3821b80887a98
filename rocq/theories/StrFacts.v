(** StrFacts.v - the library functions on strings. *)
From Verif Require Export Utf8Facts.

Lemma has_prefix_iff p : forall s, has_prefix s p = true <-> exists t, s = p ++ t.
Proof.
  induction p as [|x p IH]; intros s.
  - destruct s; cbn; split; eauto.
  - destruct s as [|y s]; cbn [has_prefix].
    + split; [discriminate|]. intros [t H]. discriminate H.
    + rewrite andb_true_iff, byte_eqb_eq, IH. split.
      * intros [-> [t ->]]. exists t. reflexivity.
      * intros [t H]. injection H as -> ->. eauto.
Qed.

Lemma has_prefix_app p t : has_prefix (p ++ t) p = true.
Proof. apply has_prefix_iff. eauto. Qed.

Lemma has_prefix_false p s : has_prefix s p = false <-> forall t, s <> p ++ t.
Proof.
  split.
  - intros H t E. rewrite (proj2 (has_prefix_iff p s)) in H by eauto. discriminate.
  - intros H. destruct (has_prefix s p) eqn:E; auto.
    apply has_prefix_iff in E as [t E]. destruct (H t E).
Qed.

Lemma has_suffix_iff p s : has_suffix s p = true <-> exists h, s = h ++ p.
Proof.
  unfold has_suffix. rewrite andb_true_iff, bytes_eqb_eq. split.
  - intros [L E]. exists (firstn (length s - length p) s).
    rewrite <- E at 2. symmetry. apply firstn_skipn.
  - intros [h ->]. rewrite slen_app. pose proof (slen_nonneg h). split; [lia|].
    rewrite app_length. replace (length h + length p - length p)%nat with (length h) by lia.
    apply skipn_app_l.
Qed.

Lemma has_suffix_false p s : has_suffix s p = false <-> forall h, s <> h ++ p.
Proof.
  split.
  - intros H t E. rewrite (proj2 (has_suffix_iff p s)) in H by eauto. discriminate.
  - intros H. destruct (has_suffix s p) eqn:E; auto.
    apply has_suffix_iff in E as [t E]. destruct (H t E).
Qed.

(** [index] finds the first occurrence. *)
Lemma index_some s sub i : index s sub = Some i ->
  exists a b, s = a ++ sub ++ b /\ slen a = i /\
    forall a' b', s = a' ++ sub ++ b' -> slen a <= slen a'.
Proof.
  revert i. induction s as [|y s IH]; intros i.
  - cbn [index]. destruct (has_prefix [] sub) eqn:E; [|discriminate].
    intros [= <-]. apply has_prefix_iff in E as [t E].
    exists [], t. split; [exact E|]. split; [reflexivity|].
    intros a' b' _. rewrite slen_nil. apply slen_nonneg.
  - cbn [index]. destruct (has_prefix (y :: s) sub) eqn:E.
    + intros [= <-]. apply has_prefix_iff in E as [t E].
      exists [], t. split; [exact E|]. split; [reflexivity|].
      intros a' b' _. rewrite slen_nil. apply slen_nonneg.
    + destruct (index s sub) as [j|] eqn:EI; [|discriminate].
      intros [= <-]. destruct (IH j eq_refl) as (a & b & -> & <- & Hm).
      exists (y :: a), b. split; [reflexivity|]. split; [apply slen_cons|].
      intros a' b' Ha. destruct a' as [|z a'].
      * rewrite has_prefix_false in E. exfalso. apply (E b'). exact Ha.
      * cbn in Ha. injection Ha as -> Ha. rewrite !slen_cons.
        specialize (Hm a' b' Ha). lia.
Qed.

Lemma index_none s sub : index s sub = None <-> forall a b, s <> a ++ sub ++ b.
Proof.
  split.
  - induction s as [|y s IH]; cbn [index].
    + destruct (has_prefix [] sub) eqn:E; [discriminate|]. intros _ a b H.
      symmetry in H. apply app_eq_nil in H as [-> H].
      rewrite has_prefix_false in E. apply (E b). auto.
    + destruct (has_prefix (y :: s) sub) eqn:E; [discriminate|].
      destruct (index s sub) eqn:EI; [discriminate|]. intros _ a b H.
      destruct a as [|z a].
      * rewrite has_prefix_false in E. apply (E b). exact H.
      * cbn in H. injection H as -> H. apply (IH eq_refl a b H).
  - intros H. destruct (index s sub) eqn:E; auto.
    apply index_some in E as (a & b & E & _). destruct (H a b E).
Qed.

Lemma contains_iff s sub : contains s sub = true <-> exists a b, s = a ++ sub ++ b.
Proof.
  unfold contains. destruct (index s sub) eqn:E.
  - split; auto. intros _. apply index_some in E as (a & b & E & _). eauto.
  - split; [discriminate|]. intros (a & b & H). rewrite index_none in E. destruct (E a b H).
Qed.

Lemma encode_rune_utf8 r : is_scalar r -> encode_rune r = utf8 r.
Proof.
  intros H. unfold is_scalar in H. unfold encode_rune.
  replace (valid_rune r) with true by (unfold valid_rune, MaxRune; lia).
  unfold utf8.
  replace (r <? 128) with (r <=? 127) by lia.
  replace (r <? 2048) with (r <=? 2047) by lia.
  replace (r <? 65536) with (r <=? 65535) by lia. reflexivity.
Qed.

Lemma rune_error_scalar : is_scalar RuneError.
Proof. unfold is_scalar, RuneError. lia. Qed.

Lemma chunked_scalar s l : chunked s l -> Forall (fun rc => is_scalar (fst rc)) l.
Proof.
  induction 1; constructor; auto. cbn. apply rune_error_scalar.
Qed.

Lemma decode_scalar s : is_scalar (fst (decode_rune s)).
Proof.
  destruct s as [|b s]; [apply rune_error_scalar|].
  destruct (decode_cases (b :: s) ltac:(discriminate)) as [(r & t & H & _ & ->)|[-> _]]; auto.
  apply rune_error_scalar.
Qed.

Lemma decode_last_scalar s : is_scalar (fst (decode_last_rune s)).
Proof.
  destruct s as [|b s]; [apply rune_error_scalar|].
  destruct (decode_last_cases (b :: s) ltac:(discriminate)) as [(r & t & H & _ & ->)|[-> _]]; auto.
  apply rune_error_scalar.
Qed.

(** A byte that can start a rune stands at the start of a chunk. *)
Lemma chunk_bytes_cons r c l : chunk_bytes ((r, c) :: l) = c ++ chunk_bytes l.
Proof. reflexivity. Qed.

Lemma chunked_start s l : chunked s l -> forall a b t, s = a ++ b :: t -> rune_start b = true ->
  exists l1 l2, l = l1 ++ l2 /\ chunk_bytes l1 = a /\ chunked (b :: t) l2.
Proof.
  intros H. remember (length s) as n eqn:Hn. assert (L : (length s <= n)%nat) by lia. clear Hn.
  revert s l H L. induction n as [|n IH]; intros s l H L a b t E Rb.
  { destruct s; [|cbn in L; lia]. destruct a; discriminate E. }
  destruct a as [|x a].
  { exists [], l. split; auto. split; auto. cbn in E. subst s. exact H. }
  destruct l as [|[r c] l].
  { apply chunked_nil_r in H. subst s. discriminate. }
  pose proof H as H'.
  apply chunked_cons_inv in H as (t' & Es & Ht & D & N & K).
  assert (Lc : (length c <= length (x :: a))%nat).
  { destruct K as [[Hr ->]|(-> & Lc & _)]; [|cbn; lia].
    destruct (utf8_shape r Hr) as (b0 & c0 & E0 & _ & F & _).
    destruct (Nat.le_gt_cases (length (utf8 r)) (length (x :: a))) as [|G]; auto. exfalso.
    rewrite E in Es. symmetry in Es. 
    assert (X : (length (x :: a) <= length (utf8 r))%nat) by lia.
    symmetry in Es. destruct (app_split_le (x :: a) (b :: t) (utf8 r) t' Es X) as (m & Em & Em').
    destruct m as [|z m].
    - rewrite app_nil_r in Em. rewrite Em in G. lia.
    - cbn in Em'. injection Em' as <- _. rewrite E0 in Em. cbn in Em. injection Em as -> Em.
      subst c0. rewrite Forall_app in F. destruct F as [_ F]. inversion F. congruence. }
  rewrite Es in E. destruct (app_split_le c t' (x :: a) (b :: t) E Lc) as (m & Em & Em').
  assert (Lt : (length t' <= n)%nat).
  { rewrite Es, app_length in L. destruct c; [congruence|]. cbn in L. lia. }
  destruct (IH t' l Ht Lt m b t Em' Rb) as (l1 & l2 & -> & Hb & H2).
  exists ((r, c) :: l1), l2. split; auto. split; auto.
  rewrite chunk_bytes_cons, Hb. symmetry. exact Em.
Qed.

Lemma chunked_in s l : chunked s l -> forall r, is_scalar r -> r <> RuneError ->
  (In r (map fst l) <-> exists a b, s = a ++ utf8 r ++ b).
Proof.
  intros H r Hr Hne. split.
  - intros I. apply in_map_iff in I as ([r' c] & E & I). cbn in E. subst r'.
    apply in_split in I as (l1 & l2 & ->).
    apply chunked_app_inv in H as (s1 & s2 & -> & H2 & ->).
    apply chunked_cons_inv in H2 as (t & -> & _ & _ & _ & [[_ ->]|[-> _]]); [|congruence].
    eauto.
  - intros (a & b & E). destruct (utf8_shape r Hr) as (b0 & c0 & E0 & Rb & _).
    rewrite E0 in E. cbn in E.
    destruct (chunked_start s l H a b0 (c0 ++ b) E Rb) as (l1 & l2 & -> & _ & H2).
    rewrite map_app. apply in_app_iff. right.
    change (b0 :: c0 ++ b) with ((b0 :: c0) ++ b) in H2. rewrite <- E0 in H2.
    destruct l2 as [|[r' c'] l2].
    { apply chunked_nil_r in H2. apply app_eq_nil in H2 as [H2 _]. destruct (utf8_nonnil r H2). }
    apply chunked_decode in H2. rewrite decode_utf8 in H2 by exact Hr. inversion H2. left. reflexivity.
Qed.

(** strings.ContainsRune is membership in the runes of the string. *)
Lemma contains_rune_iff s l : chunked s l -> forall r, is_scalar r ->
  contains_rune s r = true <-> In r (map fst l).
Proof.
  intros H r Hr. unfold contains_rune.
  destruct ((0 <=? r) && (r <? 128)) eqn:EA.
  - rewrite (chunked_in s l H r Hr) by (unfold RuneError; lia).
    rewrite existsb_exists.
    assert (U : utf8 r = [zb r]) by (unfold utf8; replace (r <? 128) with true by lia; reflexivity).
    split.
    + intros (x & I & E). apply in_split in I as (a & b & ->). exists a, b. rewrite U.
      replace (zb r) with x; auto. replace r with (bz x) by lia. symmetry. apply zb_bz.
    + intros (a & b & ->). exists (zb r). rewrite U. split.
      * apply in_app_iff. right. left. reflexivity.
      * rewrite bz_zb by lia. lia.
  - destruct (r =? RuneError) eqn:ER.
    + assert (r = RuneError) by lia. subst r.
      rewrite existsb_exists, (range_str_chunked s l H).
      rewrite <- (indexed_snd l 0), in_map_iff. split.
      * intros (x & I & E). exists x. split; auto. lia.
      * intros (x & E & I). exists x. split; auto. lia.
    + replace (valid_rune r) with true by (unfold valid_rune, MaxRune, is_scalar in *; lia).
      cbn [negb]. rewrite contains_iff, encode_rune_utf8 by exact Hr.
      rewrite (chunked_in s l H r Hr) by (unfold RuneError in *; lia). reflexivity.
Qed.
