(** ScannerRevFacts.v - exact behaviour of the calls that look backwards, of the
    folding calls, MoveRunes, ScanString and LineCol. *)
From Verif Require Export ScannerFacts.

(* ---------------------------------------------------------------- revItr *)

(** The items of a backward walk over [h ++ utf8s (rev q)]. *)
Fixpoint ritems (h : bytes) (q : list Z) : list (bytes * Z) :=
  match q with
  | [] => []
  | r :: q' => (h ++ utf8s (rev q), r) :: ritems h q'
  end.

Lemma visible_scalar r : visible r -> is_scalar r.
Proof. intros [H _]. exact H. Qed.

Lemma blocked_decode h : blocked h -> fst (decode_last_rune h) = RuneError.
Proof.
  intros B. destruct h as [|b h]; [reflexivity|].
  destruct (decode_last_cases (b :: h) ltac:(discriminate)) as [(r & t & Hr & E & D)|[D _]].
  - rewrite D. cbn. destruct (Z.eq_dec r 0xFFFD) as [->|N]; [reflexivity|].
    destruct (B r t (conj Hr N) E).
  - rewrite D. reflexivity.
Qed.

Lemma utf8s_snoc rs r : utf8s (rs ++ [r]) = utf8s rs ++ utf8 r.
Proof. rewrite utf8s_app. cbn. rewrite app_nil_r. reflexivity. Qed.

Lemma rev_iter_items h : blocked h -> forall q, Forall visible q -> forall n,
  (length q <= n)%nat -> rev_iter n (h ++ utf8s (rev q)) = (ritems h q, h).
Proof.
  intros B. induction q as [|r q IH]; intros F n L.
  - cbn [rev utf8s flat_map ritems]. rewrite app_nil_r.
    pose proof (blocked_decode h B) as D.
    destruct n; cbn [rev_iter]; destruct (decode_last_rune h) as [v vi]; cbn in D; subst v; reflexivity.
  - inversion F as [|? ? [Hr Hn] F']; subst.
    destruct n as [|n]; [cbn in L; lia|].
    cbn [rev ritems]. rewrite utf8s_snoc, app_assoc.
    cbn [rev_iter]. rewrite decode_last_utf8 by exact Hr.
    replace (r =? RuneError) with false by (unfold RuneError; lia).
    rewrite app_length.
    replace (length (h ++ utf8s (rev q)) + length (utf8 r) - length (utf8 r))%nat
      with (length (h ++ utf8s (rev q))) by lia.
    rewrite firstn_app_l. rewrite IH; [reflexivity|exact F'|cbn in L; lia].
Qed.

Lemma utf8s_length rs : (length rs <= length (utf8s rs))%nat.
Proof.
  induction rs as [|r rs IH]; [cbn; lia|]. cbn [utf8s flat_map length].
  rewrite app_length. pose proof (utf8_length_pos r). unfold utf8s in IH. lia.
Qed.

Lemma rev_items_spec h rs : blocked h -> Forall visible rs ->
  rev_items (h ++ utf8s rs) = (ritems h (rev rs), h).
Proof.
  intros B F. unfold rev_items. rewrite <- (rev_involutive rs) at 2.
  apply rev_iter_items; auto.
  - apply Forall_rev. exact F.
  - rewrite rev_length, app_length. pose proof (utf8s_length rs). lia.
Qed.

(** Every string is a blocked part followed by visible runes. *)
Lemma blocked_exists a : exists h rs, a = h ++ utf8s rs /\ blocked h /\ Forall visible rs.
Proof.
  remember (length a) as n eqn:E. assert (L : (length a <= n)%nat) by lia. clear E.
  revert a L. induction n as [|n IH]; intros a L.
  - destruct a; [|cbn in L; lia]. exists [], []. split; auto. split; auto.
    intros r t _ E. symmetry in E. apply app_eq_nil in E as [_ E]. destruct (utf8_nonnil r E).
  - destruct (list_eq_dec Byte.byte_eq_dec a []) as [->|N].
    { exists [], []. split; auto. split; auto.
      intros r t _ E. symmetry in E. apply app_eq_nil in E as [_ E]. destruct (utf8_nonnil r E). }
    destruct (decode_last_cases a N) as [(r & t & Hr & E & D)|[D X]].
    + destruct (Z.eq_dec r 0xFFFD) as [->|Nr].
      * exists a, []. split; [cbn; rewrite app_nil_r; reflexivity|]. split; auto.
        intros r' t' [Hr' Nr'] E'. rewrite E', decode_last_utf8 in D by exact Hr'.
        inversion D. congruence.
      * destruct (IH t) as (h & rs & -> & B & F).
        { rewrite E, app_length in L. pose proof (utf8_length_pos r). lia. }
        exists h, (rs ++ [r]). split; [rewrite utf8s_snoc, app_assoc; exact E|]. split; auto.
        apply Forall_app. split; auto. constructor; auto. split; auto.
    + exists a, []. split; [cbn; rewrite app_nil_r; reflexivity|]. split; auto.
      intros r' t' [Hr' _] E'. exact (X r' t' Hr' E').
Qed.

Lemma blocked_nil : blocked [].
Proof.
  intros r t _ E. symmetry in E. apply app_eq_nil in E as [_ E]. destruct (utf8_nonnil r E).
Qed.

(** Walks that stop at the first item satisfying a rune test. *)
Lemma find_rev_some p init h q1 v q2 : Forall (fun x => p x = false) q1 -> p v = true ->
  find_rev (fun _ x => p x) init (ritems h (q1 ++ v :: q2)) = Some (init - slen (h ++ utf8s (rev q2 ++ [v]))).
Proof.
  induction q1 as [|x q1 IH]; intros F P.
  - cbn [app ritems find_rev]. rewrite P. reflexivity.
  - inversion F; subst. cbn [app ritems find_rev]. rewrite H1. apply IH; auto.
Qed.

Lemma find_rev_none p init h q : Forall (fun x => p x = false) q ->
  find_rev (fun _ x => p x) init (ritems h q) = None.
Proof.
  induction q as [|x q IH]; intros F; auto.
  inversion F; subst. cbn [ritems find_rev]. rewrite H1. auto.
Qed.

Lemma move_back_runes s h r1 r2 b : at_split s (h ++ utf8s (r1 ++ r2)) b ->
  yes_by (move (- slen (utf8s r2))) s (- slen (utf8s r2)).
Proof.
  intros H. rewrite utf8s_app, app_assoc in H. exact (move_back _ _ _ _ H).
Qed.

Lemma back_dist h r1 v r2 :
  slen (h ++ utf8s (r1 ++ v :: r2)) - slen (h ++ utf8s (r1 ++ [v])) = slen (utf8s r2).
Proof.
  replace (r1 ++ v :: r2) with ((r1 ++ [v]) ++ r2) by (rewrite <- app_assoc; reflexivity).
  rewrite (utf8s_app (r1 ++ [v]) r2), !slen_app. lia.
Qed.

(** RevTo* (C13) *)
Lemma rev_to_spec (P : Z -> Prop) (p : Z -> bool) (m : M bool) s h rs b :
  at_split s (h ++ utf8s rs) b -> blocked h -> Forall visible rs ->
  (forall x, In x rs -> (p x = true <-> P x)) ->
  m s = match find_rev (fun _ x => p x) (slen (h ++ utf8s rs)) (ritems h (rev rs)) with
        | Some q => move (- q) s | None => Ok (false, s) end ->
  to_last P m s rs.
Proof.
  intros H B F HP Hm. unfold to_last, yes_by, no. rewrite Hm. split.
  - intros r1 v r2 -> F2 Pv.
    rewrite rev_app_distr. cbn [rev]. rewrite <- app_assoc. cbn [app].
    rewrite find_rev_some.
    + rewrite rev_involutive, back_dist.
      replace (r1 ++ v :: r2) with ((r1 ++ [v]) ++ r2) in H by (rewrite <- app_assoc; reflexivity).
      exact (move_back_runes _ _ _ _ _ H).
    + apply Forall_rev. rewrite Forall_forall in *. intros x Hx. specialize (F2 x Hx).
      destruct (p x) eqn:E; auto. exfalso. apply F2, HP; auto. apply in_app_iff. right. right. exact Hx.
    + apply HP; auto. apply in_app_iff. right. left. reflexivity.
  - intros F2. rewrite find_rev_none; auto.
    apply Forall_rev. rewrite Forall_forall in *. intros x Hx. specialize (F2 x Hx).
    destruct (p x) eqn:E; auto. exfalso. apply F2, HP; auto.
Qed.

Lemma rev_to_match_spec s h rs b check : at_split s (h ++ utf8s rs) b -> blocked h -> Forall visible rs ->
  to_last (fun v => check v = true) (rev_to_match check) s rs.
Proof.
  intros H B F. eapply (rev_to_spec _ check); eauto; [tauto|].
  unfold rev_to_match. head_of H. rewrite rev_items_spec by auto. cbn [fst].
  destruct (find_rev _ _ _); reflexivity.
Qed.

Lemma rev_to_rune_spec s h rs b r : at_split s (h ++ utf8s rs) b -> blocked h -> Forall visible rs ->
  to_last (fun v => v = r) (rev_to_rune r) s rs.
Proof.
  intros H B F. eapply (rev_to_spec _ (fun v => v =? r)); eauto; [intros x _; lia|].
  unfold rev_to_rune. head_of H. rewrite rev_items_spec by auto. cbn [fst].
  destruct (find_rev _ _ _); reflexivity.
Qed.

Lemma rev_to_between_spec s h rs b mn mx : at_split s (h ++ utf8s rs) b -> blocked h -> Forall visible rs ->
  to_last (fun v => mn <= v <= mx) (rev_to_between mn mx) s rs.
Proof.
  intros H B F. eapply (rev_to_spec _ (fun v => in_range mn v mx)); eauto; [intros x _; unfold in_range; lia|].
  unfold rev_to_between. head_of H. rewrite rev_items_spec by auto. cbn [fst].
  destruct (find_rev _ _ _); reflexivity.
Qed.

Lemma visible_contains str ls rs x : chunked str ls -> Forall visible rs -> In x rs ->
  contains_rune str x = true <-> In x (map fst ls).
Proof.
  intros C F I. apply (contains_rune_iff _ _ C). rewrite Forall_forall in F. apply F. exact I.
Qed.

Lemma rev_to_any_rune_spec s h rs b str ls : at_split s (h ++ utf8s rs) b -> blocked h -> Forall visible rs ->
  chunked str ls ->
  to_last (fun v => In v (map fst ls)) (rev_to_any_rune str) s rs.
Proof.
  intros H B F C. eapply (rev_to_spec _ (contains_rune str)); eauto.
  - intros x I. exact (visible_contains _ _ _ _ C F I).
  - unfold rev_to_any_rune. head_of H. rewrite rev_items_spec by auto. cbn [fst].
    destruct (find_rev _ _ _); reflexivity.
Qed.

(** RevWhile* (C13): yes whenever the head is not empty *)
Lemma rev_while_spec (P : Z -> Prop) (p : Z -> bool) s h rs b r1 r2 :
  at_split s (h ++ utf8s rs) b -> blocked h -> Forall visible rs ->
  (forall x, In x rs -> (p x = true <-> P x)) ->
  rs = r1 ++ r2 -> Forall P r2 -> (r1 = [] \/ exists r3 v, r1 = r3 ++ [v] /\ ~ P v) ->
  (h ++ utf8s rs = [] -> no (rev_while p) s) /\
  (h ++ utf8s rs <> [] -> yes_by (rev_while p) s (- slen (utf8s r2))).
Proof.
  intros H B F HP E F2 X. unfold yes_by, no, rev_while. head_of H. split.
  - intros ->. reflexivity.
  - intros N.
    destruct (slen (h ++ utf8s rs) =? 0) eqn:E0; [destruct N; apply slen_zero; lia|].
    rewrite rev_items_spec by auto. cbn [fst snd].
    assert (F2' : Forall (fun x => negb (p x) = false) (rev r2)).
    { apply Forall_rev. rewrite Forall_forall in *. intros x Hx. apply negb_false_iff.
      apply HP; auto. rewrite E. apply in_app_iff. right. exact Hx. }
    destruct X as [->|(r3 & v & -> & Nv)].
    + cbn [app] in E. subst r2. rewrite (find_rev_none (fun v => negb (p v))) by exact F2'.
      rewrite slen_app. replace (slen h + slen (utf8s rs) - slen h) with (slen (utf8s rs)) by lia.
      exact (move_back _ _ _ _ H).
    + assert (E' : rs = r3 ++ v :: r2) by (rewrite E, <- app_assoc; reflexivity).
      assert (Ep : negb (p v) = true).
      { apply negb_true_iff. destruct (p v) eqn:Ep; auto. exfalso. apply Nv, HP; auto.
        rewrite E'. apply in_app_iff. right. left. reflexivity. }
      assert (FR : find_rev (fun _ x => negb (p x)) (slen (h ++ utf8s rs)) (ritems h (rev rs))
                   = Some (slen (utf8s r2))).
      { rewrite E', rev_app_distr. cbn [rev]. rewrite <- app_assoc. cbn [app].
        rewrite (find_rev_some (fun v => negb (p v))) by auto.
        rewrite rev_involutive, back_dist. reflexivity. }
      rewrite FR.
      replace (slen (utf8s r2) =? slen (h ++ utf8s rs)) with false.
      * rewrite E in H. exact (move_back_runes _ _ _ _ _ H).
      * symmetry. apply Z.eqb_neq. intros K. rewrite E, utf8s_app, utf8s_snoc, !slen_app in K.
        pose proof (slen_nonneg h). pose proof (slen_nonneg (utf8s r3)).
        pose proof (utf8_slen_pos v). lia.
Qed.

(* ------------------------------------------------------------ RevIf* (C12) *)

Lemma last_chunk_exists a : a <> [] -> exists v c, last_chunk a v c.
Proof.
  intros N. destruct (decode_last_cases a N) as [(r & h & Hr & -> & _)|[_ X]].
  - eexists _, _. constructor. exact Hr.
  - destruct (exists_last N) as (h & b & ->). eexists _, _. constructor. exact X.
Qed.

Lemma last_chunk_decode a v c : last_chunk a v c ->
  decode_last_rune a = (v, length c) /\ (exists h, a = h ++ c) /\ c <> [].
Proof.
  intros [h r Hr|h b X].
  - rewrite decode_last_utf8 by exact Hr. split; auto. split; eauto. apply utf8_nonnil.
  - destruct (decode_last_cases (h ++ [b])) as [(r & t & Hr & E & _)|[D _]].
    + destruct h; discriminate.
    + destruct (X r t Hr E).
    + rewrite D. split; auto. split; eauto. discriminate.
Qed.

Lemma last_chunk_fun a v c v' c' : last_chunk a v c -> last_chunk a v' c' -> v = v' /\ c = c'.
Proof.
  intros H H'. apply last_chunk_decode in H as (D & (h & E) & _).
  apply last_chunk_decode in H' as (D' & (h' & E') & _).
  rewrite D in D'. inversion D'. split; auto. rewrite E in E'.
  apply app_inv_slen in E' as [_ E']; auto.
  apply (f_equal slen) in E'. rewrite !slen_app in E'. unfold slen in *. lia.
Qed.

Lemma rev_if_b_spec (P : Z -> Prop) (p : Z -> bool) (m : M bool) s a b :
  at_split s a b -> (forall x, is_scalar x -> (p x = true <-> P x)) ->
  m s = (let '(lst, i) := decode_last_rune a in if p lst then move (- Z.of_nat i) s else Ok (false, s)) ->
  (a <> [] \/ ~ P RuneError -> one_rune_back P m s a) /\
  (a = [] -> P RuneError -> yes_by m s 0).
Proof.
  intros H HP Hm. split.
  - intros N. split.
    + intros ->. destruct N as [N|N]; [congruence|]. unfold no. rewrite Hm.
      replace (decode_last_rune []) with (RuneError, 0%nat) by reflexivity.
      destruct (p RuneError) eqn:E; auto. exfalso. apply N, HP; auto. apply rune_error_scalar.
    + intros v c L. apply last_chunk_decode in L as (D & (h & E) & _). unfold yes_by, no.
      rewrite Hm, D.
      assert (Sv : is_scalar v) by (pose proof (decode_last_scalar a) as S; rewrite D in S; exact S).
      split; intros Pv.
      * rewrite (proj2 (HP v Sv) Pv). subst a. exact (move_back _ _ _ _ H).
      * destruct (p v) eqn:E'; auto. exfalso. apply Pv, HP; auto.
  - intros -> Pr. unfold yes_by. rewrite Hm.
    replace (decode_last_rune []) with (RuneError, 0%nat) by reflexivity.
    rewrite (proj2 (HP RuneError rune_error_scalar) Pr).
    exact (move_back s [] [] b H).
Qed.

Lemma rev_if_rune_spec s a b r : at_split s a b ->
  (a <> [] \/ r <> RuneError -> one_rune_back (fun v => v = r) (rev_if_rune r) s a) /\
  (a = [] -> r = RuneError -> yes_by (rev_if_rune r) s 0).
Proof.
  intros H. destruct (rev_if_b_spec (fun v => v = r) (fun v => v =? r) (rev_if_rune r) s a b H) as [A B].
  - intros x _. lia.
  - unfold rev_if_rune. head_of H. destruct (decode_last_rune a) as [v i].
    destruct (v =? r); reflexivity.
  - split; intros; [apply A|apply B]; intuition congruence.
Qed.

Lemma rev_if_any_rune_spec s a b str ls : at_split s a b -> chunked str ls ->
  (a <> [] \/ ~ In RuneError (map fst ls) ->
   one_rune_back (fun v => In v (map fst ls)) (rev_if_any_rune str) s a) /\
  (a = [] -> In RuneError (map fst ls) -> yes_by (rev_if_any_rune str) s 0).
Proof.
  intros H C.
  destruct (rev_if_b_spec (fun v => In v (map fst ls)) (contains_rune str) (rev_if_any_rune str) s a b H) as [A B].
  - intros x Sx. apply (contains_rune_iff _ _ C). exact Sx.
  - unfold rev_if_any_rune. head_of H. destruct (decode_last_rune a) as [v i].
    destruct (contains_rune str v); reflexivity.
  - split; auto.
Qed.

(** RevIfBetween and RevIfMatch step back over a rune that FAILS the test. *)
Lemma rev_if_between_spec s a b mn mx : at_split s a b ->
  (a <> [] \/ mn <= RuneError <= mx ->
   one_rune_back (fun v => ~ (mn <= v <= mx)) (rev_if_between mn mx) s a) /\
  (a = [] -> ~ (mn <= RuneError <= mx) -> yes_by (rev_if_between mn mx) s 0).
Proof.
  intros H.
  destruct (rev_if_b_spec (fun v => ~ (mn <= v <= mx)) (fun v => negb (in_range mn v mx))
              (rev_if_between mn mx) s a b H) as [A B].
  - intros x _. unfold in_range. lia.
  - unfold rev_if_between. head_of H. destruct (decode_last_rune a) as [v i].
    destruct (in_range mn v mx); reflexivity.
  - split; [|auto]. intros N. apply A. tauto.
Qed.

Lemma rev_if_match_spec s a b check : at_split s a b ->
  (a <> [] \/ check RuneError = true ->
   one_rune_back (fun v => check v = false) (rev_if_match check) s a) /\
  (a = [] -> check RuneError = false -> yes_by (rev_if_match check) s 0).
Proof.
  intros H.
  destruct (rev_if_b_spec (fun v => check v = false) (fun v => negb (check v))
              (rev_if_match check) s a b H) as [A B].
  - intros x _. apply negb_true_iff.
  - unfold rev_if_match. head_of H. destruct (decode_last_rune a) as [v i].
    destruct (check v); reflexivity.
  - split; [|auto]. intros N. apply A. destruct N as [N|N]; auto. right. congruence.
Qed.

(* --------------------------------------------------------------- RevTo (C07) *)

(** Where RevTo looks: at every boundary of the visible runes before the position. *)
Lemma rev_to_find h str init : forall q,
  (forall q1 v q2, q = q1 ++ v :: q2 -> (exists t, h ++ utf8s (rev q2 ++ [v]) = t ++ str) ->
     (forall q1' v' q2', q = q1' ++ v' :: q2' -> (length q1' < length q1)%nat ->
        forall t, h ++ utf8s (rev q2' ++ [v']) <> t ++ str) ->
     find_rev (fun s _ => has_suffix s str) init (ritems h q)
     = Some (init - slen (h ++ utf8s (rev q2 ++ [v])))) /\
  ((forall q1 v q2, q = q1 ++ v :: q2 -> forall t, h ++ utf8s (rev q2 ++ [v]) <> t ++ str) ->
     find_rev (fun s _ => has_suffix s str) init (ritems h q) = None).
Proof.
  induction q as [|r q [IHs IHn]].
  - split; [|reflexivity]. intros q1 v q2 E. destruct q1; discriminate.
  - split.
    + intros q1 v q2 E M N. destruct q1 as [|x q1].
      * cbn in E. injection E as -> ->. cbn [ritems find_rev rev].
        rewrite (proj2 (has_suffix_iff _ _)); auto.
      * cbn in E. injection E as -> E. cbn [ritems find_rev].
        assert (HS : has_suffix (h ++ utf8s (rev (x :: q))) str = false).
        { apply has_suffix_false. cbn [rev]. apply (N [] x q); [reflexivity|cbn; lia]. }
        rewrite HS. apply (IHs q1 v q2 E M).
        intros q1' v' q2' E' L. apply (N (x :: q1') v' q2'); [cbn; rewrite E'; reflexivity|cbn; lia].
    + intros N. cbn [ritems find_rev].
      assert (HS : has_suffix (h ++ utf8s (rev (r :: q))) str = false).
      { apply has_suffix_false. cbn [rev]. apply (N [] r q). reflexivity. }
      rewrite HS. apply IHn. intros q1 v q2 E. apply (N (r :: q1) v q2). rewrite E. reflexivity.
Qed.

Lemma rev_cons_split {A} (rs : list A) q1 v q2 : rev rs = q1 ++ v :: q2 ->
  rs = rev q2 ++ v :: rev q1.
Proof.
  intros E. rewrite <- (rev_involutive rs), E, rev_app_distr. cbn [rev].
  rewrite <- app_assoc. reflexivity.
Qed.

Lemma rev_to_str_spec s h rs b str : at_split s (h ++ utf8s rs) b -> blocked h -> Forall visible rs ->
  (forall r1 v r2, rs = r1 ++ v :: r2 -> (exists t, h ++ utf8s (r1 ++ [v]) = t ++ str) ->
     (forall r1' v' r2', rs = r1' ++ v' :: r2' -> (length r2' < length r2)%nat ->
        forall t, h ++ utf8s (r1' ++ [v']) <> t ++ str) ->
     yes_by (rev_to str) s (- slen (utf8s r2))) /\
  ((forall r1 v r2, rs = r1 ++ v :: r2 -> forall t, h ++ utf8s (r1 ++ [v]) <> t ++ str) ->
     no (rev_to str) s).
Proof.
  intros H B F. unfold yes_by, no, rev_to. head_of H. rewrite rev_items_spec by auto. cbn [fst].
  destruct (rev_to_find h str (slen (h ++ utf8s rs)) (rev rs)) as [Fs Fn]. split.
  - intros r1 v r2 E M N.
    rewrite (Fs (rev r2) v (rev r1)).
    + rewrite rev_involutive. rewrite E, back_dist.
      rewrite E in H. replace (r1 ++ v :: r2) with ((r1 ++ [v]) ++ r2) in H by (rewrite <- app_assoc; reflexivity).
      exact (move_back_runes _ _ _ _ _ H).
    + rewrite E, rev_app_distr. cbn [rev]. rewrite <- app_assoc. reflexivity.
    + rewrite rev_involutive. exact M.
    + intros q1' v' q2' E' L. apply rev_cons_split in E'. apply (N _ _ _ E').
      rewrite rev_length in *. exact L.
  - intros N. rewrite Fn; [reflexivity|]. intros q1 v q2 E. apply rev_cons_split in E.
    apply (N _ _ _ E).
Qed.

(** UTF-8 is self-synchronising: a non-empty well-formed string occurs in a
    well-formed text only at rune boundaries. *)
Lemma utf8s_prefix ss : forall rs u, Forall is_scalar ss -> Forall is_scalar rs ->
  utf8s rs = utf8s ss ++ u -> exists r3, rs = ss ++ r3 /\ u = utf8s r3.
Proof.
  induction ss as [|x ss IH]; intros rs u Fs Fr E.
  - exists rs. auto.
  - inversion Fs as [|? ? Hx Fs']; subst. destruct rs as [|y rs].
    { cbn in E. symmetry in E. rewrite <- app_assoc in E. apply app_eq_nil in E as [E _].
      destruct (utf8_nonnil x E). }
    inversion Fr as [|? ? Hy Fr']; subst. cbn in E. rewrite <- app_assoc in E.
    apply utf8_prefix_free in E as [-> E]; auto.
    destruct (IH rs u Fs' Fr' E) as (r3 & -> & ->). exists r3. auto.
Qed.

Lemma utf8s_sync rs t ss u : Forall is_scalar rs -> Forall is_scalar ss -> ss <> [] ->
  utf8s rs = t ++ utf8s ss ++ u ->
  exists r1 r3, rs = r1 ++ ss ++ r3 /\ t = utf8s r1 /\ u = utf8s r3.
Proof.
  intros Fr Fs N E. destruct ss as [|x ss]; [congruence|].
  inversion Fs as [|? ? Hx _]; subst.
  destruct (utf8_shape x Hx) as (b & c & Eb & Sb & _).
  pose proof (chunked_utf8s rs Fr) as C.
  assert (E' : utf8s rs = t ++ b :: (c ++ utf8s ss ++ u)).
  { rewrite E. f_equal. cbn. rewrite Eb. cbn. rewrite <- app_assoc. reflexivity. }
  destruct (chunked_start _ _ C _ _ _ E' Sb) as (l1 & l2 & El & Et & _).
  apply map_eq_app in El as (r1 & r2 & -> & El1 & El2).
  assert (Et' : t = utf8s r1).
  { rewrite <- Et, <- El1. clear. unfold chunk_bytes, utf8s. induction r1 as [|z r1 IH]; cbn; auto.
    rewrite IH. reflexivity. }
  rewrite utf8s_app, <- Et' in E. apply app_inv_head in E.
  apply Forall_app in Fr as [_ Fr2].
  destruct (utf8s_prefix (x :: ss) r2 u Fs Fr2 E) as (r3 & -> & ->).
  exists r1, r3. auto.
Qed.

Lemma visible_scalars rs : Forall visible rs -> Forall is_scalar rs.
Proof. apply Forall_impl. intros r [H _]. exact H. Qed.

Lemma rev_to_yes s rs b ss t u : at_split s (utf8s rs) b -> Forall visible rs ->
  Forall is_scalar ss -> ss <> [] -> utf8s rs = t ++ utf8s ss ++ u ->
  (forall t' u', utf8s rs = t' ++ utf8s ss ++ u' -> slen u <= slen u') ->
  yes_by (rev_to (utf8s ss)) s (- slen u).
Proof.
  intros H F Fs N E Hm.
  destruct (utf8s_sync rs t ss u (visible_scalars _ F) Fs N E) as (r1 & r3 & Er & -> & ->).
  destruct (exists_last N) as (ss' & v & Ess).
  pose proof (rev_to_str_spec s [] rs b (utf8s ss) H blocked_nil F) as [Y _].
  apply (Y (r1 ++ ss') v r3).
  - rewrite Er, Ess, <- !app_assoc. reflexivity.
  - exists (utf8s r1). cbn [app]. rewrite <- app_assoc, <- Ess, utf8s_app. reflexivity.
  - intros r1' v' r2' E' L t' K. cbn [app] in K.
    assert (X : utf8s rs = t' ++ utf8s ss ++ utf8s r2').
    { rewrite E'. replace (r1' ++ v' :: r2') with ((r1' ++ [v']) ++ r2') by (rewrite <- app_assoc; reflexivity).
      rewrite utf8s_app, K, <- app_assoc. reflexivity. }
    specialize (Hm _ _ X).
    assert (Q : exists m, r3 = m ++ r2' /\ m <> []).
    { rewrite Er in E'. rewrite app_assoc in E'.
      replace (r1' ++ v' :: r2') with ((r1' ++ [v']) ++ r2') in E' by (rewrite <- app_assoc; reflexivity).
      assert (Lh : (length (r1 ++ ss) <= length (r1' ++ [v']))%nat).
      { apply (f_equal (@length _)) in E'. rewrite !app_length in *. cbn in *. lia. }
      destruct (app_split_le _ _ _ _ E' Lh) as (m & _ & Em). exists m. split; auto.
      intros ->. cbn in Em. subst. lia. }
    destruct Q as (m & -> & Nm). rewrite utf8s_app, slen_app in Hm.
    destruct m as [|z m]; [congruence|]. cbn in Hm. rewrite slen_app in Hm.
    pose proof (utf8_slen_pos z). pose proof (slen_nonneg (utf8s m)). unfold utf8s in *. lia.
Qed.

Lemma rev_to_no s rs b ss : at_split s (utf8s rs) b -> Forall visible rs ->
  (forall t u, utf8s rs <> t ++ utf8s ss ++ u) -> no (rev_to (utf8s ss)) s.
Proof.
  intros H F N. pose proof (rev_to_str_spec s [] rs b (utf8s ss) H blocked_nil F) as [_ Y].
  apply Y. intros r1 v r2 E t K. cbn [app] in K. apply (N t (utf8s r2)).
  rewrite E. replace (r1 ++ v :: r2) with ((r1 ++ [v]) ++ r2) by (rewrite <- app_assoc; reflexivity).
  rewrite utf8s_app, K, <- app_assoc. reflexivity.
Qed.

(* --------------------------------------------------------------- folding (C08) *)

Section fold.
Context {L : GoLib}.

Lemma fold_eq1_iff a b : is_scalar a -> is_scalar b -> fold_eq1 a b = true <-> same_fold a b.
Proof.
  intros Ha Hb. unfold is_scalar in *. unfold fold_eq1, same_fold, case_pair.
  destruct (b =? a) eqn:E; [split; auto; intros _; left; lia|].
  destruct (Z.max a b <? 128) eqn:E1.
  - split.
    + intros K. right. left. lia.
    + intros [K|[K|K]]; lia.
  - split.
    + intros K. right. right. split; [lia|exact K].
    + intros [K|[K|[_ K]]]; [lia|lia|exact K].
Qed.

Lemma equal_fold_loop_iff lx : forall k x y, chunked x lx -> (length lx <= k)%nat ->
  equal_fold_loop k x y = true <-> fold_equal x y.
Proof.
  induction lx as [|[v c] lx IH]; intros k x y Cx Lk.
  - apply chunked_nil_r in Cx. subst x.
    assert (Q : equal_fold_loop k [] y = bytes_eqb [] y) by (destruct k; reflexivity).
    rewrite Q, bytes_eqb_eq. split.
    + intros <-. exists [], []. split; [constructor|]. split; constructor.
    + intros (l1 & l2 & C1 & C2 & F). apply chunked_nil_inv in C1. subst l1. inversion F; subst.
      apply chunked_nil_r in C2. auto.
  - destruct k as [|k]; [cbn in Lk; lia|]. cbn [equal_fold_loop].
    pose proof Cx as Cx'. apply chunked_cons_inv in Cx' as (t & Ex & Ct & D & N & _).
    destruct x as [|x0 x']; [destruct c; [congruence|discriminate]|].
    destruct y as [|y0 y'].
    + split; [discriminate|]. intros (l1 & l2 & C1 & C2 & F).
      apply chunked_nil_inv in C2. subst l2. inversion F; subst. apply chunked_nil_r in C1. discriminate.
    + destruct (chunked_exists (y0 :: y')) as [ly Cy].
      destruct ly as [|[w d] ly]; [apply chunked_nil_r in Cy; discriminate|].
      pose proof Cy as Cy'. apply chunked_cons_inv in Cy' as (u & Ey & Cu & D' & N' & _).
      rewrite D, D'. rewrite Ex, Ey, !skipn_app_l.
      assert (Sv : is_scalar v) by (apply chunked_scalar in Cx; inversion Cx; auto).
      assert (Sw : is_scalar w) by (apply chunked_scalar in Cy; inversion Cy; auto).
      destruct (fold_eq1 v w) eqn:Ef.
      * rewrite (IH k t u Ct) by (cbn in Lk; lia). split.
        -- intros (l1 & l2 & C1 & C2 & F). exists ((v, c) :: lx), ((w, d) :: ly).
           rewrite <- Ex, <- Ey. split; auto. split; auto.
           rewrite (chunked_fun _ _ _ Ct C1), (chunked_fun _ _ _ Cu C2).
           constructor; auto. apply fold_eq1_iff; auto.
        -- intros (l1 & l2 & C1 & C2 & F). rewrite <- Ex in C1. rewrite <- Ey in C2.
           rewrite <- (chunked_fun _ _ _ Cx C1), <- (chunked_fun _ _ _ Cy C2) in F.
           inversion F; subst. exists lx, ly. auto.
      * split; [discriminate|]. intros (l1 & l2 & C1 & C2 & F).
        rewrite <- Ex in C1. rewrite <- Ey in C2.
        rewrite <- (chunked_fun _ _ _ Cx C1), <- (chunked_fun _ _ _ Cy C2) in F.
        inversion F; subst. cbn in *. apply fold_eq1_iff in H2; auto. congruence.
Qed.

Lemma chunked_length s l : chunked s l -> (length l <= length s)%nat.
Proof.
  induction 1; cbn [length]; try lia. rewrite app_length. pose proof (utf8_length_pos r). lia.
Qed.

Lemma equal_fold_iff x y : equal_fold x y = true <-> fold_equal x y.
Proof.
  destruct (chunked_exists x) as [lx C]. unfold equal_fold. apply (equal_fold_loop_iff lx); auto.
  apply chunked_length. exact C.
Qed.

Lemma equal_fold_false x y : equal_fold x y = false <-> ~ fold_equal x y.
Proof. rewrite <- equal_fold_iff. destruct (equal_fold x y); split; congruence. Qed.

Lemma if_fold_yes s a c d str : at_split s a (c ++ d) -> slen c = slen str -> fold_equal c str ->
  yes_by (if_fold str) s (slen str).
Proof.
  intros H E F. unfold yes_by, if_fold. tail_of H. rewrite slen_app. pose proof (slen_nonneg d).
  replace (slen c + slen d <? slen str) with false by lia.
  replace (length str) with (length c) by (unfold slen in E; lia). rewrite firstn_app_l.
  rewrite (proj2 (equal_fold_iff _ _) F). rewrite <- E. exact (move_fwd _ _ _ _ H).
Qed.

Lemma if_fold_no s a c d str : at_split s a (c ++ d) -> slen c = slen str -> ~ fold_equal c str ->
  no (if_fold str) s.
Proof.
  intros H E F. unfold no, if_fold. tail_of H. rewrite slen_app. pose proof (slen_nonneg d).
  replace (slen c + slen d <? slen str) with false by lia.
  replace (length str) with (length c) by (unfold slen in E; lia). rewrite firstn_app_l.
  rewrite (proj2 (equal_fold_false _ _) F). reflexivity.
Qed.

Lemma if_fold_panic s a b str : at_split s a b -> slen b < slen str -> if_fold str s = Panic.
Proof.
  intros H E. unfold if_fold. tail_of H. replace (slen b <? slen str) with true by lia. reflexivity.
Qed.

Lemma rev_if_fold_yes s c d b str : at_split s (c ++ d) b -> slen d = slen str -> fold_equal d str ->
  yes_by (rev_if_fold str) s (- slen str).
Proof.
  intros H E F. unfold yes_by, rev_if_fold. head_of H. rewrite slen_app. pose proof (slen_nonneg c).
  replace (slen c + slen d <? slen str) with false by lia. rewrite app_length.
  replace (length c + length d - length str)%nat with (length c) by (unfold slen in E; lia).
  rewrite skipn_app_l.
  rewrite (proj2 (equal_fold_iff _ _) F). rewrite <- E. exact (move_back _ _ _ _ H).
Qed.

Lemma rev_if_fold_no s c d b str : at_split s (c ++ d) b -> slen d = slen str -> ~ fold_equal d str ->
  no (rev_if_fold str) s.
Proof.
  intros H E F. unfold no, rev_if_fold. head_of H. rewrite slen_app. pose proof (slen_nonneg c).
  replace (slen c + slen d <? slen str) with false by lia. rewrite app_length.
  replace (length c + length d - length str)%nat with (length c) by (unfold slen in E; lia).
  rewrite skipn_app_l.
  rewrite (proj2 (equal_fold_false _ _) F). reflexivity.
Qed.

Lemma rev_if_fold_panic s a b str : at_split s a b -> slen a < slen str -> rev_if_fold str s = Panic.
Proof.
  intros H E. unfold rev_if_fold. head_of H. replace (slen a <? slen str) with true by lia. reflexivity.
Qed.

(** ToFold: first byte offset where a match starts *)
Lemma to_fold_loop_spec b str k : forall n, 0 <= n -> slen b - n <= Z.of_nat k ->
  match to_fold_loop b str k n with
  | Some i => n <= i /\ i + slen str <= slen b /\ fold_equal (slice b i (i + slen str)) str /\
      forall j, n <= j < i -> ~ fold_equal (slice b j (j + slen str)) str
  | None => forall j, n <= j -> j + slen str <= slen b -> ~ fold_equal (slice b j (j + slen str)) str
  end.
Proof.
  pose proof (slen_nonneg str) as Ls.
  induction k as [|k IH]; intros n Hn Hk; cbn [to_fold_loop].
  - destruct (slen b <? slen str + n) eqn:E.
    + intros j Hj Hj'. lia.
    + destruct (equal_fold (slice b n (n + slen str)) str) eqn:Ef.
      * apply equal_fold_iff in Ef. split; [lia|]. split; [lia|]. split; auto. intros; lia.
      * apply equal_fold_false in Ef. intros j Hj Hj'. assert (j = n) by lia. subst j. exact Ef.
  - destruct (slen b <? slen str + n) eqn:E.
    + intros j Hj Hj'. lia.
    + destruct (equal_fold (slice b n (n + slen str)) str) eqn:Ef.
      * apply equal_fold_iff in Ef. split; [lia|]. split; [lia|]. split; auto. intros; lia.
      * apply equal_fold_false in Ef. specialize (IH (n + 1) ltac:(lia) ltac:(lia)).
        destruct (to_fold_loop b str k (n + 1)) as [i|].
        -- destruct IH as (I1 & I2 & I3 & I4). split; [lia|]. split; [lia|]. split; auto.
           intros j Hj. destruct (Z.eq_dec j n) as [->|]; [exact Ef|]. apply I4. lia.
        -- intros j Hj Hj'. destruct (Z.eq_dec j n) as [->|]; [exact Ef|]. apply IH; lia.
Qed.

Lemma slice_of_app b c d e : b = c ++ d ++ e -> slice b (slen c) (slen c + slen d) = d.
Proof. intros ->. apply slice_app. Qed.

Lemma slice_split b i n : 0 <= i -> 0 <= n -> i + n <= slen b ->
  exists c e, b = c ++ slice b i (i + n) ++ e /\ slen c = i.
Proof.
  intros Hi Hn Hl. destruct (split_at b i ltac:(lia)) as (c & t & -> & <-).
  rewrite slen_app in Hl. destruct (split_at t n ltac:(lia)) as (d & e & -> & <-).
  exists c, e. rewrite slice_app. auto.
Qed.

Lemma to_fold_yes s a c d e str : at_split s a (c ++ d ++ e) -> slen d = slen str -> fold_equal d str ->
  (forall c' d' e', c ++ d ++ e = c' ++ d' ++ e' -> slen d' = slen str -> fold_equal d' str ->
     slen c <= slen c') ->
  yes_by (to_fold str) s (slen c).
Proof.
  intros H Ed F Hm. unfold yes_by, to_fold. tail_of H.
  pose proof (to_fold_loop_spec (c ++ d ++ e) str (length (c ++ d ++ e)) 0 ltac:(lia) ltac:(unfold slen; lia)) as S.
  pose proof (slen_nonneg c). pose proof (slen_nonneg d). pose proof (slen_nonneg e).
  destruct (to_fold_loop (c ++ d ++ e) str (length (c ++ d ++ e)) 0) as [i|].
  - destruct S as (S1 & S2 & S3 & S4).
    assert (i = slen c).
    { destruct (slice_split (c ++ d ++ e) i (slen str)) as (c' & e' & E & Ec); try lia.
      assert (slen c <= slen c').
      { apply (Hm c' _ e' E); auto. rewrite slen_slice by lia. lia. }
      destruct (Z.eq_dec i (slen c)) as [|Ni]; auto. exfalso.
      apply (S4 (slen c) ltac:(lia)). rewrite <- Ed, slice_app. rewrite Ed in *. exact F. }
    subst i. exact (move_fwd _ _ _ _ H).
  - exfalso. apply (S (slen c) ltac:(lia)).
    + rewrite !slen_app. lia.
    + rewrite <- Ed, slice_app. exact F.
Qed.

Lemma to_fold_no s a b str : at_split s a b ->
  (forall c d e, b = c ++ d ++ e -> slen d = slen str -> ~ fold_equal d str) ->
  no (to_fold str) s.
Proof.
  intros H N. unfold no, to_fold. tail_of H. pose proof (slen_nonneg str).
  pose proof (to_fold_loop_spec b str (length b) 0 ltac:(lia) ltac:(unfold slen; lia)) as S.
  destruct (to_fold_loop b str (length b) 0) as [i|]; [|reflexivity].
  exfalso. destruct S as (S1 & S2 & S3 & _).
  destruct (slice_split b i (slen str)) as (c & e & E & Ec); try lia.
  apply (N _ _ _ E); auto. rewrite slen_slice; lia.
Qed.

(** RevToFold: walks back over the boundaries until the first one where it
    matches or where fewer than len(str) bytes are left (then it panics). *)

Lemma fold_suffix_test x str : slen str <= slen x ->
  equal_fold (skipn (length x - length str) x) str = true <-> fold_suffix x str.
Proof.
  intros Lx. rewrite equal_fold_iff. split.
  - intros F. exists (firstn (length x - length str) x), (skipn (length x - length str) x).
    split; [symmetry; apply firstn_skipn|]. split; auto.
    unfold slen in *. rewrite skipn_length. lia.
  - intros (c & d & -> & Ed & F). rewrite app_length.
    replace (length c + length d - length str)%nat with (length c) by (unfold slen in Ed; lia).
    rewrite skipn_app_l. exact F.
Qed.

Lemma rev_to_fold_loop_spec h str init s : forall q,
  (forall q1 v q2, q = q1 ++ v :: q2 -> fold_suffix (h ++ utf8s (rev q2 ++ [v])) str ->
     (forall q1' v' q2', q = q1' ++ v' :: q2' -> (length q1' < length q1)%nat ->
        slen str <= slen (h ++ utf8s (rev q2' ++ [v'])) /\ ~ fold_suffix (h ++ utf8s (rev q2' ++ [v'])) str) ->
     rev_to_fold_loop str init (ritems h q) s
     = move (- (init - slen (h ++ utf8s (rev q2 ++ [v])))) s) /\
  (forall q1 v q2, q = q1 ++ v :: q2 -> slen (h ++ utf8s (rev q2 ++ [v])) < slen str ->
     (forall q1' v' q2', q = q1' ++ v' :: q2' -> (length q1' < length q1)%nat ->
        slen str <= slen (h ++ utf8s (rev q2' ++ [v'])) /\ ~ fold_suffix (h ++ utf8s (rev q2' ++ [v'])) str) ->
     rev_to_fold_loop str init (ritems h q) s = Panic) /\
  ((forall q1 v q2, q = q1 ++ v :: q2 ->
     slen str <= slen (h ++ utf8s (rev q2 ++ [v])) /\ ~ fold_suffix (h ++ utf8s (rev q2 ++ [v])) str) ->
     rev_to_fold_loop str init (ritems h q) s = Ok (false, s)).
Proof.
  assert (Step : forall q r, slen str <= slen (h ++ utf8s (rev q ++ [r])) ->
     ~ fold_suffix (h ++ utf8s (rev q ++ [r])) str ->
     rev_to_fold_loop str init (ritems h (r :: q)) s = rev_to_fold_loop str init (ritems h q) s).
  { intros q r L1 N1. cbn [ritems rev_to_fold_loop rev].
    replace (slen (h ++ utf8s (rev q ++ [r])) <? slen str) with false by lia.
    destruct (equal_fold _ str) eqn:E; auto. exfalso. apply N1. apply fold_suffix_test; auto. }
  induction q as [|r q (IHs & IHp & IHn)].
  - split; [|split]; [| |reflexivity]; intros q1 v q2 E; destruct q1; discriminate.
  - split; [|split].
    + intros q1 v q2 E M N. destruct q1 as [|x q1].
      * cbn in E. injection E as -> ->. cbn [ritems rev_to_fold_loop rev].
        assert (slen str <= slen (h ++ utf8s (rev q2 ++ [v]))).
        { destruct M as (c & d & -> & Ed & _). rewrite slen_app. pose proof (slen_nonneg c). lia. }
        replace (slen (h ++ utf8s (rev q2 ++ [v])) <? slen str) with false by lia.
        rewrite (proj2 (fold_suffix_test _ _ H) M). reflexivity.
      * cbn in E. injection E as -> E.
        destruct (N [] x q eq_refl ltac:(cbn; lia)) as [N1 N2].
        rewrite Step by auto. apply (IHs q1 v q2 E M).
        intros q1' v' q2' E' L'. apply (N (x :: q1') v' q2'); [cbn; rewrite E'; reflexivity|cbn; lia].
    + intros q1 v q2 E M N. destruct q1 as [|x q1].
      * cbn in E. injection E as -> ->. cbn [ritems rev_to_fold_loop rev].
        replace (slen (h ++ utf8s (rev q2 ++ [v])) <? slen str) with true by lia. reflexivity.
      * cbn in E. injection E as -> E.
        destruct (N [] x q eq_refl ltac:(cbn; lia)) as [N1 N2].
        rewrite Step by auto. apply (IHp q1 v q2 E M).
        intros q1' v' q2' E' L'. apply (N (x :: q1') v' q2'); [cbn; rewrite E'; reflexivity|cbn; lia].
    + intros N. destruct (N [] r q eq_refl) as [N1 N2]. rewrite Step by auto.
      apply IHn. intros q1 v q2 E. apply (N (r :: q1) v q2). rewrite E. reflexivity.
Qed.

Lemma rev_to_fold_spec s h rs b str : at_split s (h ++ utf8s rs) b -> blocked h -> Forall visible rs ->
  let passes (r2 : list Z) := forall r1' v' r2', rs = r1' ++ v' :: r2' -> (length r2' < length r2)%nat ->
     slen str <= slen (h ++ utf8s (r1' ++ [v'])) /\ ~ fold_suffix (h ++ utf8s (r1' ++ [v'])) str in
  (forall r1 v r2, rs = r1 ++ v :: r2 -> passes r2 -> fold_suffix (h ++ utf8s (r1 ++ [v])) str ->
     yes_by (rev_to_fold str) s (- slen (utf8s r2))) /\
  (forall r1 v r2, rs = r1 ++ v :: r2 -> passes r2 -> slen (h ++ utf8s (r1 ++ [v])) < slen str ->
     rev_to_fold str s = Panic) /\
  ((forall r1 v r2, rs = r1 ++ v :: r2 ->
     slen str <= slen (h ++ utf8s (r1 ++ [v])) /\ ~ fold_suffix (h ++ utf8s (r1 ++ [v])) str) ->
   no (rev_to_fold str) s).
Proof.
  intros H B F. cbn zeta. unfold yes_by, no, rev_to_fold. head_of H. rewrite rev_items_spec by auto. cbn [fst].
  destruct (rev_to_fold_loop_spec h str (slen (h ++ utf8s rs)) s (rev rs)) as (Fs & Fp & Fn).
  assert (T : forall r1 v r2, rs = r1 ++ v :: r2 -> rev rs = rev r2 ++ v :: rev r1).
  { intros r1 v r2 ->. rewrite rev_app_distr. cbn [rev]. rewrite <- app_assoc. reflexivity. }
  split; [|split].
  - intros r1 v r2 E N M. rewrite (Fs _ _ _ (T _ _ _ E)).
    + rewrite rev_involutive. rewrite E, back_dist.
      rewrite E in H. replace (r1 ++ v :: r2) with ((r1 ++ [v]) ++ r2) in H by (rewrite <- app_assoc; reflexivity).
      exact (move_back_runes _ _ _ _ _ H).
    + rewrite rev_involutive. exact M.
    + intros q1' v' q2' E' L'. apply rev_cons_split in E'. apply (N _ _ _ E').
      rewrite rev_length in *. exact L'.
  - intros r1 v r2 E N M. apply (Fp _ _ _ (T _ _ _ E)).
    + rewrite rev_involutive. exact M.
    + intros q1' v' q2' E' L'. apply rev_cons_split in E'. apply (N _ _ _ E').
      rewrite rev_length in *. exact L'.
  - intros N. apply Fn. intros q1 v q2 E. apply rev_cons_split in E. apply (N _ _ _ E).
Qed.

End fold.

(* ------------------------------------------------- ScanString, MoveRunes (C14, C15) *)

Lemma get_prefix_loop_some str l1 x l2 : forall i n c, n - c = slen l1 ->
  get_prefix_loop str n (indexed i (l1 ++ x :: l2)) c
  = (firstn (Z.to_nat (i + slen (chunk_bytes l1))) str, true).
Proof.
  induction l1 as [|[v w] l1 IH]; intros i n c E.
  - destruct x as [v w]. cbn [app indexed get_prefix_loop]. rewrite slen_nil in E.
    replace (c =? n) with true by lia. cbn. rewrite Z.add_0_r. reflexivity.
  - cbn [app indexed get_prefix_loop]. rewrite slen_cons in E. pose proof (slen_nonneg l1).
    replace (c =? n) with false by lia. rewrite IH by lia.
    rewrite chunk_bytes_cons, slen_app. do 3 f_equal. lia.
Qed.

Lemma get_prefix_loop_none str l : forall i n c, ~ (0 <= n - c < slen l) ->
  get_prefix_loop str n (indexed i l) c = (str, false).
Proof.
  induction l as [|[v w] l IH]; intros i n c E; [reflexivity|].
  cbn [indexed get_prefix_loop]. rewrite slen_cons in E. pose proof (slen_nonneg l).
  replace (c =? n) with false by lia. apply IH. lia.
Qed.

Lemma scan_string_yes s a b l1 x l2 : at_split s a b -> chunked b (l1 ++ x :: l2) ->
  scan_string (slen l1) s = Ok ((chunk_bytes l1, true), moveto (pos (sc s) + slen (chunk_bytes l1)) s).
Proof.
  intros H C. unfold scan_string. tail_of H. unfold get_prefix.
  rewrite (range_str_chunked _ _ C), get_prefix_loop_some by lia.
  rewrite Z.add_0_l. rewrite <- (chunked_bytes _ _ C), chunk_bytes_app, firstn_slen.
  rewrite (bind_ok _ _ _ _ _ (move_chunks _ _ _ _ _ H C)). reflexivity.
Qed.

Lemma scan_string_no s a b l n : at_split s a b -> chunked b l -> ~ (0 <= n < slen l) ->
  scan_string n s = Ok ((b, false), s).
Proof.
  intros H C N. unfold scan_string. tail_of H. unfold get_prefix.
  rewrite (range_str_chunked _ _ C), get_prefix_loop_none by lia. reflexivity.
Qed.

Lemma rune_len_utf8 r : is_scalar r -> rune_len r = slen (utf8 r).
Proof.
  intros H. unfold slen. rewrite utf8_length by exact H. unfold is_scalar in H.
  unfold rune_len, MaxRune.
  destruct (r <? 128) eqn:E1, (r <? 2048) eqn:E2, (r <? 65536) eqn:E3; try lia;
  repeat match goal with |- context [if ?c then _ else _] => destruct c eqn:? end; lia.
Qed.

Lemma move_runes_fwd_some l1 v w l2 : forall i n c, n - c = slen l1 + 1 ->
  move_runes_fwd n (indexed i (l1 ++ (v, w) :: l2)) c = Some (i + slen (chunk_bytes l1) + rune_len v).
Proof.
  induction l1 as [|[v' w'] l1 IH]; intros i n c E.
  - cbn [app indexed move_runes_fwd]. rewrite slen_nil in E. replace (n =? c + 1) with true by lia.
    cbn. f_equal. lia.
  - cbn [app indexed move_runes_fwd]. rewrite slen_cons in E. pose proof (slen_nonneg l1).
    replace (n =? c + 1) with false by lia. rewrite IH by lia.
    rewrite chunk_bytes_cons, slen_app. f_equal. lia.
Qed.

Lemma move_runes_fwd_none l : forall i n c, slen l < n - c -> move_runes_fwd n (indexed i l) c = None.
Proof.
  induction l as [|[v w] l IH]; intros i n c E; [reflexivity|].
  cbn [indexed move_runes_fwd]. rewrite slen_cons in E. pose proof (slen_nonneg l).
  replace (n =? c + 1) with false by lia. apply IH. lia.
Qed.

(** Forward: to the start of the n-th rune plus the width of its VALUE. *)
Lemma move_runes_fwd_spec s a b l1 v w l2 : at_split s a b -> chunked b (l1 ++ (v, w) :: l2) ->
  move_runes (slen l1 + 1) s = move (slen (chunk_bytes l1) + slen (utf8 v)) s.
Proof.
  intros H C. unfold move_runes. pose proof (slen_nonneg l1).
  replace (0 <? slen l1 + 1) with true by lia. tail_of H.
  rewrite (range_str_chunked _ _ C), move_runes_fwd_some by lia.
  rewrite rune_len_utf8; [reflexivity|].
  apply (chunked_in_scalar _ _ v C). rewrite map_app. apply in_app_iff. right. left. reflexivity.
Qed.

Lemma move_runes_fwd_no s a b l n : at_split s a b -> chunked b l -> slen l < n ->
  no (move_runes n) s.
Proof.
  intros H C N. unfold no, move_runes. pose proof (slen_nonneg l).
  replace (0 <? n) with true by lia. tail_of H.
  rewrite (range_str_chunked _ _ C), move_runes_fwd_none by lia. reflexivity.
Qed.

Lemma move_runes_zero s : move_runes 0 s = Ok (true, s).
Proof. reflexivity. Qed.

Lemma move_runes_rev_some h init q1 v q2 : forall n c, c - n = slen q1 + 1 ->
  move_runes_rev init n (ritems h (q1 ++ v :: q2)) c
  = Some (- ((init - slen (h ++ utf8s (rev q2 ++ [v]))) + rune_len v)).
Proof.
  induction q1 as [|x q1 IH]; intros n c E.
  - cbn [app ritems move_runes_rev rev]. rewrite slen_nil in E. replace (n =? c - 1) with true by lia.
    reflexivity.
  - cbn [app ritems move_runes_rev]. rewrite slen_cons in E. pose proof (slen_nonneg q1).
    replace (n =? c - 1) with false by lia. apply IH. lia.
Qed.

Lemma move_runes_rev_none h init q : forall n c, slen q < c - n ->
  move_runes_rev init n (ritems h q) c = None.
Proof.
  induction q as [|x q IH]; intros n c E; [reflexivity|].
  cbn [ritems move_runes_rev]. rewrite slen_cons in E. pose proof (slen_nonneg q).
  replace (n =? c - 1) with false by lia. apply IH. lia.
Qed.

Lemma move_runes_rev_yes s h r1 r2 b : at_split s (h ++ utf8s (r1 ++ r2)) b -> blocked h ->
  Forall visible (r1 ++ r2) -> r2 <> [] ->
  yes_by (move_runes (- slen r2)) s (- slen (utf8s r2)).
Proof.
  intros H B F N. unfold yes_by, move_runes.
  assert (0 < slen r2).
  { destruct r2; [congruence|]. rewrite slen_cons. pose proof (slen_nonneg r2). lia. }
  replace (0 <? - slen r2) with false by lia. replace (- slen r2 <? 0) with true by lia.
  head_of H. rewrite rev_items_spec by auto. cbn [fst].
  destruct r2 as [|v r2]; [congruence|].
  rewrite rev_app_distr. cbn [rev]. rewrite <- app_assoc. cbn [app].
  rewrite move_runes_rev_some by (rewrite slen_rev, slen_cons; lia).
  rewrite rev_involutive, back_dist.
  assert (Sv : is_scalar v).
  { apply Forall_app in F as [_ F]. inversion F as [|? ? [Hv _] _]; subst. exact Hv. }
  rewrite rune_len_utf8 by exact Sv.
  replace (slen (utf8s r2) + slen (utf8 v)) with (slen (utf8s (v :: r2))).
  - exact (move_back_runes _ _ _ _ _ H).
  - cbn. rewrite slen_app. unfold utf8s. lia.
Qed.

Lemma move_runes_rev_no s h rs b n : at_split s (h ++ utf8s rs) b -> blocked h ->
  Forall visible rs -> slen rs < n -> no (move_runes (- n)) s.
Proof.
  intros H B F N. unfold no, move_runes. pose proof (slen_nonneg rs).
  replace (0 <? - n) with false by lia. replace (- n <? 0) with true by lia.
  head_of H. rewrite rev_items_spec by auto. cbn [fst].
  rewrite move_runes_rev_none by (rewrite slen_rev; lia). reflexivity.
Qed.

(* ---------------------------------------------------------------- LineCol (C17) *)

Lemma replace_crlf_nl s : replace_crlf s = [] <-> s = [].
Proof.
  split; [|intros ->; reflexivity]. destruct s as [|b [|b' t]]; cbn; auto; try discriminate.
  destruct (Byte.eqb b x0d && Byte.eqb b' x0a); discriminate.
Qed.

Lemma split_nl_nonnil s : split_nl s <> [].
Proof.
  destruct s; cbn; [discriminate|]. destruct (Byte.eqb b x0a); [discriminate|].
  destruct (split_nl s); discriminate.
Qed.

Lemma split_nl_length s : slen (split_nl s) = 1 + count_byte x0a s.
Proof.
  unfold count_byte. induction s as [|b s IH]; [reflexivity|]. cbn [split_nl filter].
  replace (Byte.eqb x0a b) with (Byte.eqb b x0a).
  2:{ destruct (Byte.eqb b x0a) eqn:E; symmetry.
      - apply byte_eqb_eq in E. subst. reflexivity.
      - apply byte_eqb_neq in E. apply byte_eqb_neq. congruence. }
  destruct (Byte.eqb b x0a).
  - rewrite !slen_cons. lia.
  - destruct (split_nl s) as [|l ls] eqn:E; [destruct (split_nl_nonnil s E)|].
    rewrite slen_cons in *. lia.
Qed.

Lemma count_byte_cons c b s : count_byte c (b :: s) = (if Byte.eqb c b then 1 else 0) + count_byte c s.
Proof. unfold count_byte. cbn [filter]. destruct (Byte.eqb c b); [rewrite slen_cons|]; lia. Qed.

Lemma replace_crlf_count s : count_byte x0a (replace_crlf s) = count_byte x0a s.
Proof.
  remember (length s) as n eqn:E. assert (L : (length s <= n)%nat) by lia. clear E.
  revert s L. induction n as [|n IH]; intros s L.
  - destruct s; [reflexivity|cbn in L; lia].
  - destruct s as [|b [|b' t]]; try reflexivity.
    destruct (Byte.eqb b x0d && Byte.eqb b' x0a) eqn:E.
    + assert (X : replace_crlf (b :: b' :: t) = x0a :: replace_crlf t) by (cbn [replace_crlf]; rewrite E; reflexivity).
      rewrite X. apply andb_true_iff in E as [E1 E2]. apply byte_eqb_eq in E1, E2. subst.
      rewrite !count_byte_cons, IH by (cbn in L; lia).
      change (Byte.eqb x0a x0a) with true. change (Byte.eqb x0a x0d) with false. cbv iota. lia.
    + assert (X : replace_crlf (b :: b' :: t) = b :: replace_crlf (b' :: t)) by (cbn [replace_crlf]; rewrite E; reflexivity).
      rewrite X, count_byte_cons, IH by (cbn in *; lia). rewrite (count_byte_cons _ b). reflexivity.
Qed.

Lemma filter_not_in c (l : bytes) : ~ In c l -> filter (Byte.eqb c) l = [].
Proof.
  induction l as [|y t IH]; intros N; auto.
  cbn. destruct (Byte.eqb c y) eqn:Ey.
  - apply byte_eqb_eq in Ey. subst. exfalso. apply N. left. reflexivity.
  - apply IH. intros I. apply N. right. exact I.
Qed.

Lemma split_nl_last s : exists p, s = p ++ last (split_nl s) [] /\
  ~ In x0a (last (split_nl s) []) /\ (p = [] \/ exists q, p = q ++ [x0a]).
Proof.
  induction s as [|b s (p & E & N & P)].
  - exists []. cbn. auto.
  - cbn [split_nl]. destruct (Byte.eqb b x0a) eqn:Eb.
    + apply byte_eqb_eq in Eb. subst b.
      destruct (split_nl s) as [|l0 ls0] eqn:Es; [destruct (split_nl_nonnil s Es)|].
      change (last ([] :: l0 :: ls0) []) with (last (l0 :: ls0) []).
      exists (x0a :: p). split; [cbn [app]; f_equal; exact E|]. split; auto.
      right. destruct P as [->|[q ->]]; [exists []|exists (x0a :: q)]; reflexivity.
    + apply byte_eqb_neq in Eb. destruct (split_nl s) as [|l ls] eqn:Es; [destruct (split_nl_nonnil s Es)|].
      destruct ls as [|l' ls].
      * cbn [last] in *. destruct P as [->|[q ->]].
        -- cbn in E. subst l. exists []. split; [reflexivity|]. split; auto.
           cbn. intros [K|K]; auto.
        -- exfalso. rewrite E in Es. clear -Es.
           assert (K : slen (split_nl ((q ++ [x0a]) ++ l)) = 1) by (rewrite Es; reflexivity).
           rewrite split_nl_length in K. unfold count_byte in K.
           rewrite !filter_app, !slen_app in K.
           pose proof (slen_nonneg (filter (Byte.eqb x0a) q)).
           pose proof (slen_nonneg (filter (Byte.eqb x0a) l)).
           change (filter (Byte.eqb x0a) [x0a]) with [x0a] in K. change (slen [x0a]) with 1 in K. lia.
      * exists (b :: p). change (last ((b :: l) :: l' :: ls) []) with (last (l :: l' :: ls) []).
        split; [cbn [app]; f_equal; exact E|]. split; auto.
        destruct P as [->|[q ->]].
        -- exfalso. cbn in E. pose proof (split_nl_length s) as K. rewrite Es in K.
           rewrite !slen_cons in K. unfold count_byte in K.
           assert (filter (Byte.eqb x0a) s = []) by (rewrite E; apply filter_not_in; exact N).
           rewrite H, slen_nil in K. pose proof (slen_nonneg ls). lia.
        -- right. exists (b :: q). reflexivity.
Qed.

(** The part behind the last newline, and that replacing CRLF does not change it. *)
Lemma last_nl_unique (p p' l l' : bytes) : p ++ l = p' ++ l' -> ~ In x0a l -> ~ In x0a l' ->
  (p = [] \/ exists q, p = q ++ [x0a]) -> (p' = [] \/ exists q, p' = q ++ [x0a]) -> l = l'.
Proof.
  assert (G : forall p p' l l' : bytes, p ++ l = p' ++ l' -> ~ In x0a l ->
     (p' = [] \/ exists q, p' = q ++ [x0a]) -> (length p < length p')%nat -> False).
  { intros p0 p0' l0 l0' E N P' L. destruct P' as [->|[q ->]]; [cbn in L; lia|].
    rewrite <- app_assoc in E. rewrite app_length in L. cbn in L.
    destruct (app_split_le p0 l0 q ([x0a] ++ l0') E ltac:(lia)) as (m & -> & ->).
    apply N. apply in_app_iff. right. left. reflexivity. }
  intros E N N' P P'.
  destruct (Nat.lt_trichotomy (length p) (length p')) as [H|[H|H]].
  - destruct (G p p' l l' E N P' H).
  - apply app_inv_len in E as [_ E]; auto.
  - symmetry in E. destruct (G p' p l' l E N' P H).
Qed.

Lemma replace_crlf_app_nl q l : ~ In x0a l -> exists q', replace_crlf (q ++ x0a :: l) = q' ++ x0a :: l.
Proof.
  intros N.
  assert (R : replace_crlf l = l).
  { induction l as [|b l IH]; auto. destruct l as [|b' l]; auto. cbn [replace_crlf] in *.
    replace (Byte.eqb b' x0a) with false.
    - rewrite andb_false_r. f_equal. apply IH. intros I. apply N. right. exact I.
    - symmetry. apply byte_eqb_neq. intros ->. apply N. right. left. reflexivity. }
  assert (R0 : forall t, replace_crlf (x0a :: t) = x0a :: replace_crlf t).
  { intros [|b t]; reflexivity. }
  remember (length q) as n eqn:E. assert (L : (length q <= n)%nat) by lia. clear E.
  revert q L. induction n as [|n IH]; intros q L.
  - destruct q; [|cbn in L; lia]. exists []. cbn [app]. rewrite R0, R. reflexivity.
  - destruct q as [|b [|b' q]].
    + exists []. cbn [app]. rewrite R0, R. reflexivity.
    + cbn [app]. destruct (Byte.eqb b x0d) eqn:Eb.
      * exists []. apply byte_eqb_eq in Eb. subst b. cbn [replace_crlf app].
        replace (Byte.eqb x0d x0d && Byte.eqb x0a x0a) with true by reflexivity. rewrite R. reflexivity.
      * exists [b]. change (b :: x0a :: l) with (b :: x0a :: l). 
        assert (X : replace_crlf (b :: x0a :: l) = b :: replace_crlf (x0a :: l)).
        { cbn [replace_crlf]. rewrite Eb. reflexivity. }
        rewrite X, R0, R. reflexivity.
    + change ((b :: b' :: q) ++ x0a :: l) with (b :: b' :: (q ++ x0a :: l)).
      destruct (Byte.eqb b x0d && Byte.eqb b' x0a) eqn:Eb.
      * assert (X : replace_crlf (b :: b' :: (q ++ x0a :: l)) = x0a :: replace_crlf (q ++ x0a :: l)).
        { cbn [replace_crlf]. rewrite Eb. reflexivity. }
        rewrite X. destruct (IH q ltac:(cbn in L; lia)) as [q' ->]. exists (x0a :: q'). reflexivity.
      * assert (X : replace_crlf (b :: b' :: (q ++ x0a :: l)) = b :: replace_crlf ((b' :: q) ++ x0a :: l)).
        { cbn [replace_crlf app]. rewrite Eb. reflexivity. }
        rewrite X. destruct (IH (b' :: q) ltac:(cbn in *; lia)) as [q' ->]. exists (b :: q'). reflexivity.
Qed.

Lemma replace_crlf_id l : ~ In x0a l -> replace_crlf l = l.
Proof.
  intros N. induction l as [|b l IH]; auto. destruct l as [|b' l]; auto. cbn [replace_crlf] in *.
  replace (Byte.eqb b' x0a) with false.
  - rewrite andb_false_r. f_equal. apply IH. intros I. apply N. right. exact I.
  - symmetry. apply byte_eqb_neq. intros ->. apply N. right. left. reflexivity.
Qed.

(** Only the last of several wraps counts. *)
Lemma wrap64_in x y : wrap64 (wrap64 x + y) = wrap64 (x + y).
Proof.
  unfold wrap64. f_equal. replace ((x + 2 ^ 63) mod 2 ^ 64 - 2 ^ 63 + y + 2 ^ 63) with ((x + 2 ^ 63) mod 2 ^ 64 + y) by ring.
  rewrite Z.add_mod_idemp_l by lia. f_equal. ring.
Qed.
Lemma wrap64_sum x y z : wrap64 (wrap64 (x + wrap64 y) + z) = wrap64 (x + y + z).
Proof.
  rewrite wrap64_in. replace (x + wrap64 y + z) with (wrap64 y + (x + z)) by ring. rewrite wrap64_in. f_equal. ring.
Qed.
Lemma line_col_spec s a b p l tab : at_split s a b -> a = p ++ l -> ~ In x0a l ->
  (p = [] \/ exists q, p = q ++ [x0a]) ->
  line_col tab s = Ok ((1 + count_byte x0a a,
                        wrap64 (1 + (slen l - count_byte x09 l) + count_byte x09 l * tab)), s).
Proof.
  intros H E N P. unfold line_col. head_of H.
  assert (LL : last (split_nl (replace_crlf a)) [] = l).
  { destruct (split_nl_last (replace_crlf a)) as (p' & E' & N' & P').
    destruct P as [->|[q ->]].
    - cbn in E. subst a. rewrite (replace_crlf_id l N) in *.
      symmetry. apply (last_nl_unique [] p' l _ E' N N'); auto.
    - rewrite <- app_assoc in E. cbn in E. subst a.
      destruct (replace_crlf_app_nl q l N) as [q' R]. rewrite R in *.
      symmetry. apply (last_nl_unique (q' ++ [x0a]) p' l _); eauto.
      rewrite <- app_assoc. exact E'. }
  assert (LN : slen (split_nl (replace_crlf a)) = 1 + count_byte x0a a).
  { rewrite split_nl_length, replace_crlf_count. reflexivity. }
  destruct (split_nl (replace_crlf a)) as [|x xs] eqn:Es; [destruct (split_nl_nonnil _ Es)|].
  cbn zeta. rewrite LL, LN, wrap64_sum. unfold ret. do 4 f_equal. lia.
Qed.
