(** LuaLex.v - what the lexical readers of grammar/lua.go read. *)
From Verif Require Export LuaFacts SpecLuaLex.
From Coq Require Import Lia ZifyBool.
From Verif Require Import ReaderSteps ReaderScan.

Lemma same_split (w1 w2 r1 r2 : bytes) : w1 ++ r1 = w2 ++ r2 -> length w1 = length w2 -> w1 = w2 /\ r1 = r2.
Proof.
  revert w2. induction w1 as [|x w1 IH]; intros [|y w2] H E; try discriminate; auto. injection H as -> H. injection E as E. destruct (IH _ H E) as [-> ->]. auto.
Qed.
Lemma longest_app (P Q : bytes -> Prop) (h : byte -> Prop) b w1 r1 w2 r2 : longest P b w1 r1 -> longest Q r1 w2 r2 -> Forall (fun y => ~ h y) w1 ->
  (forall v, Q v -> v = [] \/ exists y t, v = y :: t /\ h y) -> longest (fun w => exists u v, w = u ++ v /\ P u /\ Q v) b (w1 ++ w2) r2.
Proof.
  intros (E1 & P1 & M1) (E2 & P2 & M2) N H. split; [rewrite <- app_assoc; congruence|]. split; [exists w1, w2; auto|].
  intros w' rest' E (u & v & -> & U & V). rewrite !app_length. rewrite <- app_assoc in E. pose proof (M1 _ _ E U) as Lu.
  destruct (Nat.eq_dec (length u) (length w1)) as [Q1|Q1].
  - rewrite E1 in E. destruct (same_split _ _ _ _ E (eq_sym Q1)) as [-> E3]. pose proof (M2 _ _ E3 V). lia.
  - destruct (H v V) as [->|(y & t & -> & Hy)]; [cbn; lia|]. exfalso. rewrite E1 in E. cbn [app] in E.
    assert (X : nth_error (w1 ++ r1) (length u) = Some y) by (rewrite E, nth_error_app2, Nat.sub_diag by lia; reflexivity).
    rewrite nth_error_app1 in X by lia. apply nth_error_In in X. rewrite Forall_forall in N. exact (N y X Hy).
Qed.
Lemma longest_ext (P Q : bytes -> Prop) b w r : (forall v, P v <-> Q v) -> longest P b w r -> longest Q b w r.
Proof. intros H (E & Pw & M). split; auto. split; [apply H; auto|]. intros w' r' E' Q'. apply (M w' r' E'). apply H; auto. Qed.
Lemma longest_fun (P : bytes -> Prop) b w1 r1 w2 r2 : longest P b w1 r1 -> longest P b w2 r2 -> w1 = w2 /\ r1 = r2.
Proof.
  intros (E1 & P1 & M1) (E2 & P2 & M2). apply same_split; [congruence|]. pose proof (M1 _ _ E2 P2). pose proof (M2 _ _ E1 P1). lia.
Qed.
(** A prefix in [P] is the longest if all bytes of it and none behind it satisfy [g]. *)
Lemma run_prefix g (i t i' t' : bytes) : i ++ t = i' ++ t' -> first g t = false -> forallb g i' = true -> (length i' <= length i)%nat.
Proof.
  revert i'. induction i as [|x i IH]; intros i' E F G; destruct i' as [|y i']; cbn [length]; try lia.
  - cbn [app] in E. subst t. cbn in F. cbn in G. rewrite F in G. discriminate.
  - injection E as -> E. cbn in G. apply andb_prop in G as [_ G]. pose proof (IH _ E F G). lia.
Qed.

Section Lex.
Context {L : GoLib} (e : env).
Lemma takes_ext2 r g g' : (forall x, g x = g' x) -> takes e r g -> takes e r g'.
Proof. intros H T c b. specialize (T c b). replace (first g' b) with (first g b); auto. destruct b; cbn; auto. Qed.

(** Bytes *)
Definition d_dig := within 0x30 0x39.
Definition d_hex (x : byte) := within 0x30 0x39 x || within 0x61 0x66 x || within 0x41 0x46 x.
Definition d_let (x : byte) := within 0x41 0x5A x || within 0x61 0x7A x || is 0x5F x.
Definition d_word (x : byte) := d_let x || d_dig x.
Lemma all_bytes {g : byte -> bool} {P : byte -> Prop} (H : forall x, g x = true <-> P x) w : forallb g w = true <-> Forall P w.
Proof. rewrite forallb_forall, Forall_forall. split; intros F x I; apply H; auto. Qed.
Lemma d_dig_is x : d_dig x = true <-> l_digit x.
Proof. unfold d_dig, within, l_digit. lia. Qed.
Lemma d_hex_is x : d_hex x = true <-> l_hex x.
Proof. unfold d_hex, within, l_hex, l_digit. lia. Qed.
Lemma d_let_is x : d_let x = true <-> l_letter x.
Proof.
  unfold d_let, within, is, l_letter. split; [|intros [H|[H|H]]; [lia|lia|subst; reflexivity]]. intros H.
  destruct (Z.eqb_spec (bz x) 0x5F) as [Q|Q]; [right; right; apply bz_inj; exact Q|lia].
Qed.
Lemma d_word_is x : d_word x = true <-> (l_letter x \/ l_digit x).
Proof. unfold d_word. rewrite orb_true_iff, d_let_is, d_dig_is. reflexivity. Qed.
Lemma tk_dig : takes e digit d_dig.
Proof. apply takes_byte, rb_between. lia. Qed.
Lemma tk_hex : takes e hex_digit_reader d_hex.
Proof. eapply takes_ext2; [|apply takes_byte, rb_ranges; reflexivity]. intros x. destruct x; vm_compute; reflexivity. Qed.
Lemma tk_any s : forallb (fun x => bz x <? 128) s = true -> takes e (RAnyRune s) (one_of s).
Proof. intros H. apply takes_byte, rb_any, H. Qed.
Lemma one_of_in s x : one_of s x = true <-> In x s.
Proof.
  unfold one_of. rewrite existsb_exists. split.
  - intros (y & I & H). assert (x = y) by (apply Z.eqb_eq, bz_inj in H; auto). subst. auto.
  - intros I. exists x. split; auto. lia.
Qed.
Lemma tk_rune n : 0 <= n < 128 -> takes e (RRune n) (is n).
Proof. intros H. apply takes_byte, rb_rune. auto. Qed.
Lemma is_byte n x : is n x = true -> x = zb n.
Proof. unfold is. intros H. apply Z.eqb_eq in H. rewrite <- H, zb_bz. reflexivity. Qed.
(** Set with the underscore *)
Lemma rb_set l : forallb (fun q => snd q <? 128) l = true ->
  reads_byte (RBetweenAny l (lit "_")) (fun x => existsb (fun q => within (fst q) (snd q) x) l || is 0x5F x).
Proof.
  intros H. eexists. split; [reflexivity|]. rewrite runes_ascii by reflexivity. change (map bz (lit "_")) with [0x5F]. cbn [existsb]. split.
  - intros v i V. cbv beta. replace (existsb _ l) with false; [lia|].
    induction l as [|q l IH]; [reflexivity|]. cbn [forallb] in H. apply andb_prop in H as [H1 H2]. cbn [existsb]. rewrite <- IH by auto. unfold in_range. lia.
  - intros x. cbn [Nat.eqb negb andb]. unfold is.
    assert (X : existsb (fun q => within (fst q) (snd q) x) l = (bz x <? 128) && existsb (fun q => in_range (fst q) (bz x) (snd q)) l).
    { induction l as [|q l IH]; [cbn; lia|]. cbn [forallb] in H. apply andb_prop in H as [H1 H2]. cbn [existsb]. rewrite IH by auto. unfold in_range, within. lia. }
    rewrite X. lia.
Qed.

(** One or more *)
Lemma many_run r g (P : byte -> Prop) b : takes e r g -> (forall x, g x = true <-> P x) ->
  (exists w rest, longest (some P) b w rest /\ out e (IR (RMany r)) b true rest) \/ (first g b = false /\ out e (IR (RMany r)) b false b).
Proof.
  intros T H. destruct (byte_span g b) as (w & t & -> & W & F). pose proof (o_many e _ _ _ (o_rep_takes e _ _ _ _ T W F)) as O. rewrite app_length in O.
  destruct w as [|x w]; [right; split; auto; replace (Nat.ltb _ _) with false in O by (symmetry; apply Nat.ltb_ge; cbn; lia); exact O|]. left. exists (x :: w), t.
  replace (Nat.ltb _ _) with true in O by (symmetry; apply Nat.ltb_lt; cbn; lia). split; auto. split; auto. split; [split; [discriminate|apply (all_bytes H); auto]|].
  intros w' r' E (_ & Fw). apply (run_prefix g _ t _ r'); auto. apply (all_bytes H). auto.
Qed.
Lemma some_first (P : byte -> Prop) w : some P w -> exists x t, w = x :: t /\ P x.
Proof. intros [N F]. destruct w as [|x w]; [congruence|]. inversion F; subst. eauto. Qed.
Lemma first_some g (P : byte -> Prop) b d r : (forall x, g x = true <-> P x) -> first g b = false -> b = d ++ r -> some P d -> False.
Proof. intros H F -> S. apply some_first in S as (x & t & -> & Px). cbn in F. apply H in Px. congruence. Qed.

(** Fractions *)
Definition frac_reader (r : reader) : reader := ROpt (RSeq [RRune 0x2E; RMany r]).
Lemma frac_run r g (P : byte -> Prop) b : takes e r g -> (forall x, g x = true <-> P x) ->
  exists w rest, longest (l_frac P) b w rest /\ out e (IR (frac_reader r)) b true rest.
Proof.
  intros T H. destruct (first (is 0x2E) b) eqn:F.
  - destruct b as [|x b]; [discriminate|]. apply is_byte in F as ->. change (zb 0x2E) with x2e. destruct (many_run r g P b T H) as [(w & t & (E & Pw & M) & O)|[F O]].
    + exists (x2e :: w), t. split.
      * split; [cbn; congruence|]. split; [right; eauto|]. intros w' r' E' [->|(d & -> & D)]; [cbn; lia|]. cbn [app] in E'. injection E' as E'. pose proof (M _ _ E' D). cbn. lia.
      * apply o_opt_yes, o_seq. eapply os_next; [eapply o_takes_yes; [apply (tk_rune 0x2E); lia|reflexivity]|]. eapply os_next; [exact O|apply os_nil].
    + exists [], (x2e :: b). split.
      * split; auto. split; [left; auto|]. intros w' r' E' [->|(d & -> & D)]; [cbn; lia|]. exfalso. cbn [app] in E'. injection E' as E'. eapply first_some; eauto.
      * eapply o_opt_no, o_seq_no. eapply os_next; [eapply o_takes_yes; [apply (tk_rune 0x2E); lia|reflexivity]|]. apply os_stop. exact O.
  - exists [], b. split.
    + split; auto. split; [left; auto|]. intros w' r' -> [->|(d & -> & D)]; [cbn; lia|]. discriminate F.
    + eapply o_opt_no, o_seq_no. apply os_stop. eapply o_takes_no; [apply (tk_rune 0x2E); lia|auto].
Qed.
(** Exponents *)
Definition sign_reader : reader := ROpt (RAnyRune (lit "+-")).
Lemma sign_run b : exists w rest, longest l_sign b w rest /\ out e (IR sign_reader) b true rest.
Proof.
  assert (T : takes e (RAnyRune (lit "+-")) (one_of (lit "+-"))) by (apply tk_any; reflexivity). destruct (first (one_of (lit "+-")) b) eqn:F.
  - destruct b as [|x b]; [discriminate|]. cbn [first] in F. exists [x], b. split; [|apply o_opt_yes; eapply o_takes_yes; eauto].
    split; auto. apply one_of_in in F. split; [right; destruct F as [<-|[<-|[]]]; auto|]. intros w' r' _ [->|[->| ->]]; cbn; lia.
  - exists [], b. split; [|eapply o_opt_no, o_takes_no; eauto]. split; auto. split; [left; auto|].
    intros w' r' -> [->|[->| ->]]; [cbn; lia|discriminate F|discriminate F].
Qed.
Definition exp_reader (marks : bytes) : reader := ROpt (RSeq [RAnyRune marks; sign_reader; RMany digit]).
Lemma sign_no_digit s : l_sign s -> s = [] \/ exists y t, s = y :: t /\ d_dig y = false.
Proof. intros [->|[->| ->]]; eauto 6. right. exists x2b, []. auto. right. exists x2d, []. auto. Qed.
Lemma sign_cut s d s' d' r r' : l_sign s -> l_sign s' -> some l_digit d -> some l_digit d' -> s ++ d ++ r = s' ++ d' ++ r' -> s = s' /\ d ++ r = d' ++ r'.
Proof.
  intros S S' D D' E. apply some_first in D as (x & t & -> & Hx). apply some_first in D' as (x' & t' & -> & Hx'). unfold l_digit in *.
  destruct S as [->|[->| ->]], S' as [->|[->| ->]]; change (lit "+") with [x2b] in *; change (lit "-") with [x2d] in *; cbn [app] in *; try (split; [reflexivity|congruence]); exfalso; try discriminate; injection E as E _; subst; cbn in *; lia.
Qed.
Lemma exp_run marks b : forallb (fun x => bz x <? 128) marks = true ->
  exists w rest, longest (l_exp marks) b w rest /\ out e (IR (exp_reader marks)) b true rest.
Proof.
  intros A. pose proof (tk_any _ A) as T. destruct (first (one_of marks) b) eqn:F.
  - destruct b as [|x b]; [discriminate|]. cbn [first] in F. destruct (sign_run b) as (s & t & (Es & Ps & Ms) & Os).
    destruct (many_run digit d_dig l_digit t tk_dig d_dig_is) as [(w & r & (Ed & Pd & Md) & Od)|[F2 O2]].
    + exists (x :: s ++ w), r. split.
      * split; [cbn; rewrite <- app_assoc; congruence|]. split; [right; exists x, s, w; split; auto; split; [apply one_of_in; auto|auto]|].
        intros w' r' E' [->|(y & s' & d' & -> & I & S' & D')]; [cbn; lia|]. cbn [app] in E'. injection E' as <- E'. rewrite <- app_assoc in E'.
        assert (X : s ++ w ++ r = s' ++ d' ++ r') by congruence. destruct (sign_cut _ _ _ _ _ _ Ps S' Pd D' X) as [<- Y].
        assert (Q : t = d' ++ r') by congruence. pose proof (Md _ _ Q D'). cbn. rewrite !app_length. lia.
      * apply o_opt_yes, o_seq. eapply os_next; [eapply o_takes_yes; eauto|]. eapply os_next; [exact Os|]. eapply os_next; [exact Od|apply os_nil].
    + exists [], (x :: b). split.
      * split; auto. split; [left; auto|]. intros w' r' E' [->|(y & s' & d' & -> & I & S' & D')]; [cbn; lia|]. exfalso. cbn [app] in E'. injection E' as <- E'. rewrite <- app_assoc in E'.
        pose proof (Ms s' (d' ++ r') E' S') as Ls. rewrite Es in E'. apply some_first in D' as (z & tz & -> & Hz).
        assert (Q : length s' = length s).
        { destruct Ps as [->|[->| ->]]; [cbn in *; lia| |]; (destruct S' as [->|[->| ->]]; [|reflexivity|reflexivity]); cbn in E'; injection E' as E' _; subst z; unfold l_digit in Hz; cbn in Hz; lia. }
        destruct (same_split _ _ _ _ E' (eq_sym Q)) as [-> ->]. cbn in F2. apply d_dig_is in Hz. congruence.
      * eapply o_opt_no, o_seq_no. eapply os_next; [eapply o_takes_yes; eauto|]. eapply os_next; [exact Os|]. apply os_stop. exact O2.
  - exists [], b. split.
    + split; auto. split; [left; auto|]. intros w' r' -> [->|(y & s' & d' & -> & I & S' & D')]; [cbn; lia|]. cbn in F. apply one_of_in in I. congruence.
    + eapply o_opt_no, o_seq_no. apply os_stop. eapply o_takes_no; eauto.
Qed.
(** Mantissa and exponent *)
Lemma mantissa_run r g (P : byte -> Prop) marks b : takes e r g -> (forall x, g x = true <-> P x) -> ~ P x2e ->
  (forall x, In x marks -> ~ P x /\ x <> x2e) -> forallb (fun x => bz x <? 128) marks = true ->
  (exists w rest, longest (fun w => exists i f x, w = i ++ f ++ x /\ some P i /\ l_frac P f /\ l_exp marks x) b w rest /\
     out e (ISeq [RMany r; frac_reader r; exp_reader marks]) b true rest) \/ (first g b = false /\ out e (ISeq [RMany r; frac_reader r; exp_reader marks]) b false b).
Proof.
  intros T H Nd Nm A. destruct (many_run r g P b T H) as [(i & t & Hi & Oi)|[F O]]; [left|right; split; auto; apply os_stop; exact O].
  destruct (frac_run r g P t T H) as (f & t2 & Hf & Of). destruct (exp_run marks t2 A) as (x & rest & Hx & Ox).
  exists (i ++ f ++ x), rest. split.
  - assert (E : longest (fun w => exists u v, w = u ++ v /\ l_frac P u /\ l_exp marks v) t (f ++ x) rest).
    { eapply (longest_app _ _ (fun y => In y marks)); [exact Hf|exact Hx| |].
      - destruct Hf as (_ & [->|(d & -> & (_ & D))] & _); [constructor|]. constructor; [intros I; destruct (Nm _ I); congruence|].
        eapply Forall_impl; [|exact D]. intros y Py I. destruct (Nm _ I); auto.
      - intros v [->|(y & s & d & -> & I & _)]; [left; auto|right; exists y, (s ++ d); auto]. }
    eapply longest_ext; [|eapply (longest_app _ _ (fun y => In y marks \/ y = x2e)); [exact Hi|exact E| |]].
    + intros v. split.
      * intros (u & w & -> & U & (f' & x' & -> & F' & X')). exists u, f', x'. auto.
      * intros (u & f' & x' & -> & U & F' & X'). exists u, (f' ++ x'). split; auto. split; auto. exists f', x'. auto.
    + destruct Hi as (_ & (_ & D) & _). eapply Forall_impl; [|exact D]. intros y Py [I| ->]; [destruct (Nm _ I); auto|auto].
    + intros v (u & w & -> & [->|(d & -> & D)] & [->|(y & s & d' & -> & I & _)]); cbn [app]; [left; auto|right; eexists _, _; split; [reflexivity|cbv beta; auto]..].
  - eapply os_next; [exact Oi|]. eapply os_next; [exact Of|]. eapply os_next; [exact Ox|apply os_nil].
Qed.
Definition dec_reader : reader := RSeq [RMany digit; frac_reader digit; exp_reader (lit "eE")].
Definition hex_reader : reader := RSeq [RRune 0x30; RAnyRune (lit "xX"); RMany hex_digit_reader; frac_reader hex_digit_reader; exp_reader (lit "pP")].
Lemma dec_run b : (exists w rest, longest l_decimal b w rest /\ out e (IR dec_reader) b true rest) \/ (first d_dig b = false /\ out e (IR dec_reader) b false b).
Proof.
  destruct (mantissa_run digit d_dig l_digit (lit "eE") b tk_dig d_dig_is) as [(w & r & H & O)|[F O]]; try reflexivity.
  - unfold l_digit. cbn. lia.
  - intros x [<-|[<-|[]]]; split; try discriminate; unfold l_digit; cbn; lia.
  - left. exists w, r. split; [exact H|]. apply o_seq. exact O.
  - right. split; auto. eapply o_seq_no. exact O.
Qed.
Lemma tk_zero : takes e (RRune 0x30) (is 0x30). Proof. apply tk_rune; lia. Qed.
Lemma hex_run b : (exists w rest, longest l_hexadecimal b w rest /\ out e (IR hex_reader) b true rest) \/
  ((forall w r, b = w ++ r -> ~ l_hexadecimal w) /\ out e (IR hex_reader) b false b).
Proof.
  assert (Tx : takes e (RAnyRune (lit "xX")) (one_of (lit "xX"))) by (apply tk_any; reflexivity).
  destruct (first (is 0x30) b) eqn:F0.
  2:{ right. split; [|eapply o_seq_no, os_stop, o_takes_no; [apply tk_zero|auto]]. intros w r -> (m & i & f & x & -> & _). discriminate F0. }
  destruct b as [|z b]; [discriminate|]. apply is_byte in F0 as ->. change (zb 0x30) with x30. destruct (first (one_of (lit "xX")) b) eqn:Fx.
  2:{ right. split.
      - intros w r E (m & i & f & x & -> & I & _). cbn [app] in E. injection E as ->. cbn [app first] in Fx. apply one_of_in in I. congruence.
      - eapply o_seq_no, os_next; [eapply o_takes_yes; [apply tk_zero|reflexivity]|]. eapply os_stop, o_takes_no; eauto. }
  destruct b as [|m b]; [discriminate|]. cbn [first] in Fx.
  destruct (mantissa_run hex_digit_reader d_hex l_hex (lit "pP") b tk_hex d_hex_is) as [(w & r & H & O)|[F O]]; try reflexivity.
  - unfold l_hex, l_digit. cbn. lia.
  - intros x [<-|[<-|[]]]; split; try discriminate; unfold l_hex, l_digit; cbn; lia.
  - left. exists (x30 :: m :: w), r. destruct H as (E & (i & f & x & W & Hi & Hf & Hx) & M). split.
    + split; [cbn; congruence|]. split; [exists m, i, f, x; split; [congruence|]; split; [apply one_of_in; auto|auto]|].
      intros w' r' E' (m' & i' & f' & x' & -> & I' & Hi' & Hf' & Hx'). cbn [app] in E'. injection E' as _ E'. cbn [length]. apply le_n_S, le_n_S. apply (M _ r' E'). exists i', f', x'. auto.
    + apply o_seq. eapply os_next; [eapply o_takes_yes; [apply tk_zero|reflexivity]|]. eapply os_next; [eapply o_takes_yes; eauto|]. exact O.
  - right. split.
    + intros w r E (m' & i' & f' & x' & -> & I' & Hi' & Hf' & Hx'). cbn [app] in E. injection E as _ E. rewrite <- app_assoc in E. eapply first_some; [exact d_hex_is| |exact E|]; auto.
    + eapply o_seq_no, os_next; [eapply o_takes_yes; [apply tk_zero|reflexivity]|]. eapply os_next; [eapply o_takes_yes; eauto|]. exact O.
Qed.
Lemma numeral_is : lua_numeral = RAny [hex_reader; RSeq [RRune 0x30; RAnyRune (lit "xX"); RMany hex_digit_reader]; dec_reader; RMany digit].
Proof. reflexivity. Qed.
Lemma o_hexval_no b : out e (IR hex_reader) b false b -> out e (IR (RSeq [RRune 0x30; RAnyRune (lit "xX"); RMany hex_digit_reader])) b false b.
Proof.
  assert (Tx : takes e (RAnyRune (lit "xX")) (one_of (lit "xX"))) by (apply tk_any; reflexivity).
  intros O. destruct (first (is 0x30) b) eqn:F0; [|eapply o_seq_no, os_stop, o_takes_no; [apply tk_zero|auto]].
  destruct b as [|z b]; [discriminate|]. apply is_byte in F0 as ->. change (zb 0x30) with x30 in *. destruct (first (one_of (lit "xX")) b) eqn:Fx.
  2:{ eapply o_seq_no, os_next; [eapply o_takes_yes; [apply tk_zero|reflexivity]|]. eapply os_stop, o_takes_no; eauto. }
  destruct b as [|m b]; [discriminate|]. cbn [first] in Fx. destruct (many_run hex_digit_reader d_hex l_hex b tk_hex d_hex_is) as [(w & r & H & O2)|[F O2]].
  - exfalso. destruct (hex_run (x30 :: m :: b)) as [(w' & r' & _ & X)|[X _]]; [destruct (out_det _ _ _ _ _ _ _ O X); discriminate|].
    destruct H as (E & S & _). apply (X (x30 :: m :: w) r); [cbn; congruence|]. exists m, w, [], []. rewrite !app_nil_r. split; auto. split; [apply one_of_in; auto|].
    split; auto. split; left; auto.
  - eapply o_seq_no, os_next; [eapply o_takes_yes; [apply tk_zero|reflexivity]|]. eapply os_next; [eapply o_takes_yes; eauto|]. apply os_stop. exact O2.
Qed.
Lemma decimal_prefix m b w r : one_of (lit "xX") m = true -> x30 :: m :: b = w ++ r -> l_decimal w -> (length w <= 1)%nat.
Proof.
  intros M E (i & f & x & -> & S & F & X). apply one_of_in in M. assert (Nm : ~ l_digit m) by (destruct M as [<-|[<-|[]]]; unfold l_digit; cbn; lia).
  apply some_first in S as S2. destruct S as [_ D]. destruct S2 as (y & t & -> & _). cbn [app] in E. injection E as <- E. destruct t as [|y t].
  - cbn [app] in *. destruct F as [->|(d & -> & _)].
    + destruct X as [->|(y & s & d & -> & I & _)]; [cbn; lia|]. cbn [app] in E. injection E as -> _. exfalso. destruct M as [<-|[<-|[]]]; destruct I as [I|[I|[]]]; discriminate.
    + cbn [app] in E. injection E as -> _. exfalso. destruct M as [M|[M|[]]]; discriminate.
  - cbn [app] in E. injection E as -> _. inversion D as [|? ? _ D2]; subst. inversion D2; subst. tauto.
Qed.
Lemma numeral_run b : (exists w rest, longest l_numeral b w rest /\ out e (IR lua_numeral) b true rest) \/
  ((forall w r, b = w ++ r -> ~ l_numeral w) /\ out e (IR lua_numeral) b false b).
Proof.
  rewrite numeral_is. destruct (hex_run b) as [(w & r & (E & P & M) & O)|[N O]].
  - left. exists w, r. split; [|apply o_any, oa_hit; exact O]. split; auto. split; [right; auto|]. intros w' r' E' [D|H]; [|apply (M _ _ E' H)].
    destruct P as (m & i & f & x & -> & I & _). cbn [app] in E. rewrite E in E'. apply (decimal_prefix _ _ _ _ (proj2 (one_of_in _ _) I)) in E'; auto. cbn. lia.
  - destruct (dec_run b) as [(w & r & (E & P & M) & Od)|[F Od]].
    + left. exists w, r. split.
      * split; auto. split; [left; auto|]. intros w' r' E' [D|H]; [apply (M _ _ E' D)|]. elim (N _ _ E' H).
      * apply o_any. eapply oa_next; [exact O|]. eapply oa_next; [apply o_hexval_no; exact O|]. apply oa_hit. exact Od.
    + right. split.
      * intros w r E [(i & f & x & -> & S & _)|H]; [|exact (N _ _ E H)]. rewrite <- app_assoc in E. eapply first_some; [exact d_dig_is|exact F|exact E|exact S].
      * eapply o_any_no. eapply oa_next; [exact O|]. eapply oa_next; [apply o_hexval_no; exact O|]. eapply oa_next; [exact Od|]. eapply oa_next; [|apply oa_nil].
        destruct (many_run digit d_dig l_digit b tk_dig d_dig_is) as [(w & r & (E & S & _) & _)|[_ X]]; [exfalso; eapply first_some; [exact d_dig_is|exact F|exact E|exact S]|exact X].
Qed.

(** Names *)
Definition name_head : reader := RBetweenAny [(0x61, 0x7A); (0x41, 0x5A)] (lit "_").
Definition name_more : reader := RBetweenAny [(0x61, 0x7A); (0x41, 0x5A); (0x30, 0x39)] (lit "_").
Definition name_reader : reader := RSeq [name_head; RZom name_more].
Lemma tk_head : takes e name_head d_let.
Proof. eapply takes_ext2; [|apply takes_byte, rb_set; reflexivity]. intros x. destruct x; vm_compute; reflexivity. Qed.
Lemma tk_more : takes e name_more d_word.
Proof. eapply takes_ext2; [|apply takes_byte, rb_set; reflexivity]. intros x. destruct x; vm_compute; reflexivity. Qed.
Lemma name_run b : (exists w rest, longest l_name b w rest /\ out e (IR name_reader) b true rest) \/
  ((forall w r, b = w ++ r -> ~ l_name w) /\ out e (IR name_reader) b false b).
Proof.
  destruct (first d_let b) eqn:F.
  - left. destruct b as [|x b]; [discriminate|]. cbn [first] in F. destruct (byte_span d_word b) as (w & t & -> & W & Ft). exists (x :: w), t. split.
    + split; auto. split; [exists x, w; split; auto; split; [apply d_let_is; auto|apply (all_bytes d_word_is); auto]|].
      intros w' r' E (y & u & -> & _ & U). cbn [app] in E. injection E as _ E. cbn [length]. apply le_n_S. apply (run_prefix d_word _ t _ r'); auto. apply (all_bytes d_word_is). auto.
    + apply o_seq. eapply os_next; [eapply o_takes_yes; [apply tk_head|auto]|]. eapply os_next; [|apply os_nil]. apply o_zom. eapply o_rep_takes; [apply tk_more|auto|auto].
  - right. split.
    + intros w r -> (x & t & -> & X & _). cbn in F. apply d_let_is in X. congruence.
    + eapply o_seq_no, os_stop, o_takes_no; [apply tk_head|auto].
Qed.

(** Escapes *)
Definition esc_char : bytes := lit "abfnrtvz" ++ [x22; x27; x5c].
Definition esc_readers : list reader :=
  [RSeq [RRune 0x5C; RAnyRune esc_char];
   RAny [RSeq [RRune 0x5C; digit]; RSeq [RRune 0x5C; RTimes 2 digit]; RSeq [RRune 0x5C; RBetween 0x30 0x32; RTimes 2 digit]];
   RSeq [RLit (x5c :: lit "x"); RTimes 2 hex_digit_reader];
   RSeq [RLit (x5c :: lit "u{"); RMany hex_digit_reader; RLit (lit "}")]].
Lemma escape_is : lua_escape = RAny esc_readers. Proof. reflexivity. Qed.
Lemma tk_back : takes e (RRune 0x5C) (is 0x5C). Proof. apply tk_rune; lia. Qed.
Lemma tk_esc : takes e (RAnyRune esc_char) (one_of esc_char). Proof. apply tk_any. reflexivity. Qed.
Lemma o_lit2 x y b : (forall t, b <> x :: y :: t) -> out e (IR (RLit [x; y])) b false b.
Proof. intros H. apply o_lit_no. intros t. apply H. Qed.
Lemma o_times2 r g h1 h2 b : takes e r g -> g h1 = true -> g h2 = true -> out e (IR (RTimes 2 r)) (h1 :: h2 :: b) true b.
Proof.
  intros T A B c. apply e_times. change (Z.to_nat 2) with 2%nat. eapply i_times_next; [eapply takes_yes; eauto|]. eapply i_times_next; [eapply takes_yes; eauto|]. apply i_times_0.
Qed.
Lemma o_times2_no r g b : takes e r g -> (forall h1 h2 t, b = h1 :: h2 :: t -> g h1 = true -> g h2 = true -> False) -> exists b', out e (IR (RTimes 2 r)) b false b'.
Proof.
  intros T N. destruct (first g b) eqn:F.
  - destruct b as [|h1 b]; [discriminate|]. cbn [first] in F. assert (F2 : first g b = false).
    { destruct b as [|h2 b]; auto. cbn. destruct (g h2) eqn:G; auto. elim (N h1 h2 b); auto. }
    exists b. intros c. apply e_times. change (Z.to_nat 2) with 2%nat. eapply i_times_next; [eapply takes_yes; eauto|]. apply i_times_stop. eapply takes_no; eauto.
  - exists b. intros c. apply e_times. change (Z.to_nat 2) with 2%nat. apply i_times_stop. eapply takes_no; eauto.
Qed.
Definition slash : byte := x5c.
Lemma o_escape_char x b : one_of esc_char x = true -> out e (IR lua_escape) (x5c :: x :: b) true b.
Proof.
  intros H. rewrite escape_is. apply o_any, oa_hit, o_seq. eapply os_next; [eapply o_takes_yes; [apply tk_back|reflexivity]|].
  eapply os_next; [eapply o_takes_yes; [apply tk_esc|auto]|apply os_nil].
Qed.
Lemma o_esc1_no b : first (one_of esc_char) b = false -> out e (IR (RSeq [RRune 0x5C; RAnyRune esc_char])) (x5c :: b) false (x5c :: b).
Proof. intros H. eapply o_seq_no, os_next; [eapply o_takes_yes; [apply tk_back|reflexivity]|]. eapply os_stop, o_takes_no; [apply tk_esc|auto]. Qed.
Lemma o_escape_digit x b : d_dig x = true -> out e (IR lua_escape) (x5c :: x :: b) true b.
Proof.
  intros H. rewrite escape_is. apply o_any. eapply oa_next.
  { apply o_esc1_no. cbn [first]. destruct x; try discriminate H; reflexivity. }
  apply oa_hit, o_any, oa_hit, o_seq. eapply os_next; [eapply o_takes_yes; [apply tk_back|reflexivity]|]. eapply os_next; [eapply o_takes_yes; [apply tk_dig|auto]|apply os_nil].
Qed.
Lemma o_escdec_no b : first d_dig b = false ->
  out e (IR (RAny [RSeq [RRune 0x5C; digit]; RSeq [RRune 0x5C; RTimes 2 digit]; RSeq [RRune 0x5C; RBetween 0x30 0x32; RTimes 2 digit]])) (x5c :: b) false (x5c :: b).
Proof.
  intros H. assert (B : forall r rs b1, out e (IR r) b false b1 -> out e (IR (RSeq (RRune 0x5C :: r :: rs))) (x5c :: b) false (x5c :: b)).
  { intros r rs b1 O. eapply o_seq_no, os_next; [eapply o_takes_yes; [apply tk_back|reflexivity]|]. eapply os_stop. exact O. }
  eapply o_any_no. eapply oa_next; [eapply B, o_takes_no; [apply tk_dig|auto]|].
  eapply oa_next; [eapply B; intros c; apply e_times; change (Z.to_nat 2) with 2%nat; apply i_times_stop; eapply takes_no; [apply tk_dig|auto]|].
  eapply oa_next; [eapply B, o_takes_no; [apply takes_byte, rb_between; lia|]|apply oa_nil].
  destruct b as [|x b]; auto. cbn [first] in *. unfold d_dig, within in *. lia.
Qed.
Lemma o_escape_hex h1 h2 b : d_hex h1 = true -> d_hex h2 = true -> out e (IR lua_escape) (x5c :: x78 :: h1 :: h2 :: b) true b.
Proof.
  intros A B. rewrite escape_is. apply o_any. eapply oa_next; [apply o_esc1_no; reflexivity|]. eapply oa_next; [apply o_escdec_no; reflexivity|].
  apply oa_hit, o_seq. eapply os_next; [apply (o_lit e (x5c :: lit "x"))|]. eapply os_next; [eapply o_times2; [apply tk_hex|auto|auto]|apply os_nil].
Qed.
Lemma o_escx_no b : (forall h1 h2 t, b = x5c :: x78 :: h1 :: h2 :: t -> d_hex h1 = true -> d_hex h2 = true -> False) ->
  out e (IR (RSeq [RLit (x5c :: lit "x"); RTimes 2 hex_digit_reader])) b false b.
Proof.
  intros N. destruct (lit_cases (x5c :: lit "x") b) as [[t ->]|Q]; [|eapply o_seq_no, os_stop, o_lit_no; exact Q].
  destruct (o_times2_no hex_digit_reader d_hex t tk_hex) as [b' O].
  { intros h1 h2 t' -> A B. apply (N h1 h2 t'); auto. }
  eapply o_seq_no, os_next; [apply o_lit|]. eapply os_stop. exact O.
Qed.
Lemma o_escu_no b : (forall d t, b = x5c :: x75 :: x7b :: d ++ x7d :: t -> ~ some l_hex d) ->
  out e (IR (RSeq [RLit (x5c :: lit "u{"); RMany hex_digit_reader; RLit (lit "}")])) b false b.
Proof.
  intros N. destruct (lit_cases (x5c :: lit "u{") b) as [[t ->]|Q]; [|eapply o_seq_no, os_stop, o_lit_no; exact Q].
  destruct (many_run hex_digit_reader d_hex l_hex t tk_hex d_hex_is) as [(w & r & (E & S & _) & O)|[F O]].
  - eapply o_seq_no, os_next; [apply o_lit|]. eapply os_next; [exact O|]. eapply os_stop, o_lit_no. intros t' ->. apply (N w t'); auto. rewrite E. reflexivity.
  - eapply o_seq_no, os_next; [apply o_lit|]. eapply os_stop. exact O.
Qed.
Lemma hex_stops d t : some l_hex d -> forall w r, d ++ x7d :: t = w ++ r -> some l_hex w -> (length w <= length d)%nat.
Proof. intros _ w r E (_ & W). apply (run_prefix d_hex _ (x7d :: t) _ r); auto. apply (all_bytes d_hex_is). auto. Qed.
Lemma o_escape_utf8 d b : some l_hex d -> out e (IR lua_escape) (x5c :: x75 :: x7b :: d ++ x7d :: b) true b.
Proof.
  intros D. rewrite escape_is. apply o_any. eapply oa_next; [apply o_esc1_no; reflexivity|]. eapply oa_next; [apply o_escdec_no; reflexivity|].
  eapply oa_next; [apply o_escx_no; intros; discriminate|]. apply oa_hit, o_seq. eapply os_next; [apply (o_lit e (x5c :: lit "u{"))|].
  destruct (many_run hex_digit_reader d_hex l_hex (d ++ x7d :: b) tk_hex d_hex_is) as [(w & r & Lw & O)|[F _]]; [|exfalso; eapply first_some; [exact d_hex_is|exact F|reflexivity|exact D]].
  assert (Q : longest (some l_hex) (d ++ x7d :: b) d (x7d :: b)) by (split; auto; split; auto; apply hex_stops; auto).
  destruct (longest_fun _ _ _ _ _ _ Lw Q) as [-> ->]. eapply os_next; [exact O|]. eapply os_next; [apply (o_lit e (lit "}"))|apply os_nil].
Qed.
Lemma o_escape_yes u b : l_escape u -> out e (IR lua_escape) (u ++ b) true b.
Proof.
  intros H. destruct H as [x H|x H|h1 h2 H1 H2|d D]; cbn [app].
  - apply o_escape_char. apply one_of_in. auto.
  - apply o_escape_digit. apply d_dig_is. auto.
  - apply o_escape_hex; apply d_hex_is; auto.
  - rewrite <- app_assoc. apply o_escape_utf8. auto.
Qed.
Lemma o_escape_none b : (forall u t, b = u ++ t -> ~ l_escape u) -> out e (IR lua_escape) b false b.
Proof.
  intros N. destruct (first (is 0x5C) b) eqn:F.
  - destruct b as [|x b]; [discriminate|]. apply is_byte in F as ->. change (zb 0x5C) with x5c in *. rewrite escape_is. eapply o_any_no.
    eapply oa_next; [apply o_esc1_no; destruct b as [|y b]; auto; cbn [first]; destruct (one_of esc_char y) eqn:Q; auto; exfalso; apply (N [x5c; y] b); auto; apply le_char, one_of_in; auto|].
    eapply oa_next; [apply o_escdec_no; destruct b as [|y b]; auto; cbn [first]; destruct (d_dig y) eqn:Q; auto; exfalso; apply (N [x5c; y] b); auto; apply le_digit, d_dig_is; auto|].
    eapply oa_next; [apply o_escx_no; intros h1 h2 t Q A B; apply (N [x5c; x78; h1; h2] t); auto; apply le_hex; apply d_hex_is; auto|].
    eapply oa_next; [apply o_escu_no; intros d t Q D; apply (N (x5c :: x75 :: x7b :: d ++ [x7d]) t); [cbn [app]; rewrite <- app_assoc; exact Q|apply le_utf8; auto]|apply oa_nil].
  - assert (A : forall rs, out e (IR (RSeq (RRune 0x5C :: rs))) b false b) by (intros rs; eapply o_seq_no, os_stop, o_takes_no; [apply tk_back|auto]).
    assert (B : forall x rs, out e (IR (RSeq (RLit (x5c :: x) :: rs))) b false b).
    { intros x rs. eapply o_seq_no, os_stop, o_lit_no. intros t ->. discriminate F. }
    rewrite escape_is. eapply o_any_no. eapply oa_next; [apply A|]. eapply oa_next; [eapply o_any_no; eapply oa_next; [apply A|]; eapply oa_next; [apply A|]; eapply oa_next; [apply A|apply oa_nil]|].
    eapply oa_next; [apply B|]. eapply oa_next; [apply B|apply oa_nil].
Qed.
Lemma escape_dec b : (exists u t, b = u ++ t /\ l_escape u) \/ (forall u t, b = u ++ t -> ~ l_escape u).
Proof.
  destruct b as [|x b]; [right; intros u t E H; destruct H; discriminate|]. destruct (byte_eq_dec x x5c) as [->|N]; [|right; intros u t E H; destruct H; cbn in E; congruence].
  destruct b as [|y b]; [right; intros u t E H; destruct H; discriminate|].
  destruct (one_of esc_char y) eqn:Q1; [left; exists [x5c; y], b; split; auto; apply le_char, one_of_in; auto|].
  destruct (d_dig y) eqn:Q2; [left; exists [x5c; y], b; split; auto; apply le_digit, d_dig_is; auto|].
  assert (K : forall u t, x5c :: y :: b = u ++ t -> l_escape u -> (exists h1 h2, u = [x5c; x78; h1; h2] /\ l_hex h1 /\ l_hex h2) \/ exists d, u = x5c :: x75 :: x7b :: d ++ [x7d] /\ some l_hex d).
  { intros u t E H. destruct H as [z H|z H|h1 h2 H1 H2|d D]; cbn [app] in E; [| |left; eauto|right; eauto]; injection E as <- _; [apply one_of_in in H|apply d_dig_is in H]; unfold esc_char in *; congruence. }
  destruct (byte_eq_dec y x78) as [->|Nx].
  - assert (D : (exists h1 h2 t, b = h1 :: h2 :: t /\ d_hex h1 = true /\ d_hex h2 = true) \/ (forall h1 h2 t, b = h1 :: h2 :: t -> d_hex h1 = true -> d_hex h2 = true -> False)).
    { destruct b as [|h1 [|h2 t]]; [right; discriminate|right; discriminate|]. destruct (d_hex h1) eqn:G1; [|right; intros ? ? ? E; injection E as <- <- <-; congruence].
      destruct (d_hex h2) eqn:G2; [left; eauto 7|right; intros ? ? ? E; injection E as <- <- <-; congruence]. }
    destruct D as [(h1 & h2 & t & -> & G1 & G2)|D].
    + left. exists [x5c; x78; h1; h2], t. split; auto. apply le_hex; apply d_hex_is; auto.
    + right. intros u t E H. destruct (K u t E H) as [(h1 & h2 & -> & G1 & G2)|(d & -> & _)]; cbn [app] in E; [|discriminate]. injection E as E. apply (D h1 h2 t E); apply d_hex_is; auto.
  - destruct (lit_cases (x5c :: lit "u{") (x5c :: y :: b)) as [[t E]|Q].
    2:{ right. intros u t E H. destruct (K u t E H) as [(h1 & h2 & -> & _)|(d & -> & _)]; cbn [app] in E; [congruence|]. eapply Q. exact E. }
    rewrite E in *. destruct (byte_span d_hex t) as (w & r & -> & W & F). destruct (first (is 0x7D) r && negb (match w with [] => true | _ => false end)) eqn:G.
    + apply andb_prop in G as [G1 G2]. destruct r as [|z r]; [discriminate|]. apply is_byte in G1 as ->. left. exists (x5c :: x75 :: x7b :: w ++ [x7d]), r.
      split; [cbn [app]; rewrite <- app_assoc; reflexivity|]. apply le_utf8. split; [destruct w; discriminate|apply (all_bytes d_hex_is); auto].
    + right. intros u t0 E0 H. destruct (K u t0 E0 H) as [(h1 & h2 & -> & _)|(d & -> & D)]; [discriminate E0|]. change ((x5c :: lit "u{") ++ w ++ r) with (x5c :: x75 :: x7b :: w ++ r) in E0.
      cbn [app] in E0. injection E0 as E0. rewrite <- app_assoc in E0. cbn [app] in E0.
      assert (L1 : (length d <= length w)%nat) by (eapply run_prefix; [exact E0|exact F|apply (all_bytes d_hex_is); apply D]).
      assert (L2 : (length w <= length d)%nat) by (eapply (run_prefix d_hex); [symmetry; exact E0|reflexivity|exact W]).
      destruct (same_split _ _ _ _ E0) as [-> ->]; [lia|]. cbn in G. destruct D as [D _]. destruct d; [congruence|discriminate].
Qed.

(** Characters *)
Definition d_plain (q x : byte) : bool := (0x20 <=? bz x) && negb (is (bz q) x) && negb (is 0x5C x).
Lemma d_plain_is q x : d_plain q x = true <-> l_plain q x.
Proof.
  unfold d_plain, l_plain, is. rewrite !andb_true_iff, !negb_true_iff, Z.leb_le, !Z.eqb_neq. split.
  - intros [[A B] C]. split; auto. split; intros ->; [apply B|apply C]; reflexivity.
  - intros (A & B & C). split; [split; auto|]; intros D; [apply B|apply C]; apply bz_inj; auto.
Qed.
Lemma utf8_plain q r : bz q < 128 -> is_scalar r -> 128 <= r -> Forall (l_plain q) (utf8 r).
Proof.
  intros Hq S H. assert (P : forall z, 128 <= z < 256 -> l_plain q (zb z)).
  { intros z Hz. apply d_plain_is. unfold d_plain, is. rewrite bz_zb by lia. lia. }
  unfold is_scalar in S. unfold utf8. replace (r <? 0x80) with false by lia.
  destruct (r <? 0x800) eqn:E1; [|destruct (r <? 0x10000) eqn:E2]; repeat (apply Forall_cons || apply Forall_nil); apply P; pose proof (Z.mod_pos_bound r 64); pose proof (Z.mod_pos_bound (r / 64) 64);
    pose proof (Z.mod_pos_bound (r / 4096) 64); Z.div_mod_to_equations; lia.
Qed.
Section Quoted.
Context (q : byte) (q_ascii : bz q < 128) (q_slash : q <> x5c).
Definition hole : reader := RHoley 0x20 MaxRune [q; x5c].
Definition char_reader : reader := RAny [hole; lua_escape].
Lemma quoted_is : lua_quoted q = RSeq [RRune (bz q); RZom char_reader; RRune (bz q)]. Proof. reflexivity. Qed.
Lemma plain_rune2 x b : l_plain q x -> exists u t, x :: b = u ++ t /\ u <> [] /\ Forall (l_plain q) u /\ after_rune (x :: b) = t.
Proof.
  intros P. unfold after_rune. destruct (decode_cases (x :: b)) as [(r & t & S & Q & D)|[D _]]; [discriminate| |].
  - rewrite D. cbn [snd]. exists (utf8 r), t. split; auto. split; [unfold utf8; destruct (r <? 0x80); [discriminate|]; destruct (r <? 0x800); [discriminate|]; destruct (r <? 0x10000); discriminate|].
    split; [|rewrite Q; apply skipn_app_l].
    destruct (Z.ltb_spec r 128) as [G|G]; [|apply utf8_plain; auto]. assert (U : utf8 r = [zb r]) by (unfold utf8; replace (r <? 0x80) with true by lia; auto).
    rewrite U in *. injection Q as Q _. rewrite <- Q. repeat constructor; apply P.
  - rewrite D. cbn [snd skipn]. exists [x], b. split; auto. split; [discriminate|]. split; auto.
Qed.
Lemma hole_test b : test (fun v i => in_range 0x20 v MaxRune && negb (contains_rune [q; x5c] v)) b = match b with [] => true | x :: _ => d_plain q x end.
Proof.
  assert (U : utf8 (bz q) = [q]) by (unfold utf8; replace (bz q <? 0x80) with true by lia; rewrite zb_bz; auto).
  assert (Sq : is_scalar (bz q)) by (unfold is_scalar; pose proof (bz_range q); lia).
  assert (K : chunked [q; x5c] [(bz q, [q]); (0x5C, [x5c])]).
  { change [q; x5c] with ([q] ++ [x5c]). rewrite <- U. apply (ck_rune (bz q) [x5c]); auto. apply (ck_rune 0x5C []); [unfold is_scalar; lia|]. constructor. }
  assert (C : forall v, is_scalar v -> contains_rune [q; x5c] v = ((v =? bz q) || (v =? 0x5C))).
  { intros v S. pose proof (contains_rune_iff _ _ K v S) as Q. cbn [map fst In] in Q. destruct (contains_rune [q; x5c] v).
    - destruct Q as [Q _]. destruct (Q eq_refl) as [<-|[<-|[]]]; lia.
    - destruct Q as [_ Q]. destruct (Z.eqb_spec v (bz q)); [subst; discriminate Q; auto|]. destruct (Z.eqb_spec v 0x5C); [subst; discriminate Q; auto|]. reflexivity. }
  unfold test. destruct b as [|x b].
  - cbn [decode_rune fst]. rewrite C by (unfold is_scalar, RuneError; lia). unfold in_range, RuneError, MaxRune. lia.
  - pose proof (decode_scalar (x :: b)) as S. rewrite (C _ S). destruct (Z.ltb_spec (bz x) 128) as [H|H].
    + rewrite decode_ascii in * by auto. cbn [fst]. unfold in_range, d_plain, is, MaxRune. lia.
    + pose proof (decode_high x b H) as D. unfold is_scalar in S. unfold in_range, d_plain, is, MaxRune. lia.
Qed.
Lemma o_hole_end : out e (IR hole) [] true [].
Proof. intros c. pose proof (e_test e hole _ c [] eq_refl) as X. rewrite hole_test in X. exact X. Qed.
Lemma o_hole x b : l_plain q x -> exists u t, x :: b = u ++ t /\ u <> [] /\ Forall (l_plain q) u /\ out e (IR hole) (x :: b) true t.
Proof.
  intros P. destruct (plain_rune2 x b P) as (u & t & Q & N & F & A). exists u, t. split; auto. split; auto. split; auto. intros c.
  pose proof (e_test e hole _ c (x :: b) eq_refl) as X. rewrite hole_test in X. apply d_plain_is in P. rewrite P, A in X. exact X.
Qed.
Lemma o_hole_no x b : ~ l_plain q x -> out e (IR hole) (x :: b) false (x :: b).
Proof.
  intros P c. pose proof (e_test e hole _ c (x :: b) eq_refl) as X. rewrite hole_test in X. destruct (d_plain q x) eqn:Q; [elim P; apply d_plain_is; auto|exact X].
Qed.
Lemma escape_head u : l_escape u -> exists t, u = x5c :: t.
Proof. intros H; destruct H; eauto. Qed.
Lemma slash_not_plain : ~ l_plain q x5c. Proof. unfold l_plain. tauto. Qed.
Lemma quote_not_plain : ~ l_plain q q. Proof. unfold l_plain. tauto. Qed.
Lemma o_ch_escape u b : l_escape u -> out e (IR char_reader) (u ++ b) true b.
Proof.
  intros H. apply o_any. apply oa_next with (b1 := u ++ b); [|apply oa_hit, o_escape_yes; auto]. apply escape_head in H as [t ->]. cbn [app]. apply o_hole_no, slash_not_plain.
Qed.
Lemma o_ch_end : out e (IR char_reader) [] true []. Proof. apply o_any, oa_hit, o_hole_end. Qed.
Lemma o_ch_plain x b : l_plain q x -> exists u t, x :: b = u ++ t /\ u <> [] /\ Forall (l_plain q) u /\ out e (IR char_reader) (x :: b) true t.
Proof. intros P. destruct (o_hole x b P) as (u & t & Q & N & F & O). exists u, t. split; auto. split; auto. split; auto. apply o_any, oa_hit. exact O. Qed.
Lemma o_ch_no x b : ~ l_plain q x -> (forall u t, x :: b = u ++ t -> ~ l_escape u) -> out e (IR char_reader) (x :: b) false (x :: b).
Proof. intros P N. eapply o_any_no, oa_next; [apply o_hole_no; auto|]. eapply oa_next; [apply o_escape_none; auto|apply oa_nil]. Qed.
Lemma no_escape x b : x <> x5c -> forall u t, x :: b = u ++ t -> ~ l_escape u.
Proof. intros N u t E H. apply escape_head in H as [v ->]. cbn in E. congruence. Qed.
Lemma ch_cases w : l_chars q w -> w = [] \/ (exists x t, w = x :: t /\ l_plain q x) \/ (exists u t, w = u ++ t /\ l_escape u /\ l_chars q t).
Proof. inversion 1; subst; eauto 8. Qed.
Lemma ch_plain u t : Forall (l_plain q) u -> l_chars q t -> l_chars q (u ++ t).
Proof. induction 1; cbn; auto. intros. apply lc_plain; auto. Qed.
Lemma ch_plain_inv u t : Forall (l_plain q) u -> l_chars q (u ++ t) -> l_chars q t.
Proof.
  induction 1 as [|x u P F IH]; cbn; auto. intros H. inversion H as [|? ? ? ? E|? ? Eu ? E]; subst; auto. apply escape_head in Eu as [v ->]. cbn in E. injection E as <- _. elim (slash_not_plain P).
Qed.
Lemma ch_prefix u t w b : Forall (l_plain q) u -> u ++ t = w ++ q :: b -> exists w', w = u ++ w' /\ t = w' ++ q :: b.
Proof.
  intros F. revert w. induction F as [|x u P F IH]; intros w H; [exists w; auto|]. destruct w as [|y w]; injection H as -> H.
  - elim (quote_not_plain P).
  - destruct (IH w H) as (w' & -> & ->). exists w'. auto.
Qed.
Lemma shorter (u : bytes) n (x : byte) t v t' : x :: t = v ++ t' -> v <> [] -> (length (x :: t) <= S n)%nat -> (length t' <= n)%nat.
Proof. intros Q N H. rewrite Q, app_length in H. destruct v; [congruence|cbn in H; lia]. Qed.
Lemma escape_long u : l_escape u -> (0 < length u)%nat. Proof. intros H. apply escape_head in H as [t ->]. cbn. lia. Qed.
Lemma o_chs b : forall n u, (length u <= n)%nat -> l_chars q u -> out e (IRep char_reader) (u ++ q :: b) true (q :: b).
Proof.
  assert (Z : out e (IRep char_reader) (q :: b) true (q :: b)) by (apply or_stop, o_ch_no; [apply quote_not_plain|apply no_escape; auto]).
  induction n as [|n IH]; intros u Hn J; (destruct (ch_cases u J) as [->|[(x & t & -> & P)|(v & t & -> & V & Jt)]]; try exact Z; cbn [length] in Hn; try lia).
  - apply escape_long in V. rewrite app_length in Hn. lia.
  - destruct (o_ch_plain x (t ++ q :: b) P) as (v & t' & Q & N & F & O). cbn [app]. eapply or_next; [exact O|].
    change (x :: t ++ q :: b) with ((x :: t) ++ q :: b) in Q. symmetry in Q. destruct (ch_prefix v t' (x :: t) b F Q) as (w' & W & ->). apply IH.
    + eapply (shorter []); eauto.
    + rewrite W in J. eapply ch_plain_inv; eauto.
  - rewrite <- app_assoc. eapply or_next; [apply o_ch_escape; auto|]. apply IH; auto. apply escape_long in V. rewrite app_length in Hn. lia.
Qed.
Lemma k_chs : forall n u, (length u <= n)%nat -> l_chars q u -> stuck e (IRep char_reader) u.
Proof.
  assert (Z : stuck e (IRep char_reader) []) by apply kr_loop, o_ch_end.
  induction n as [|n IH]; intros u Hn J; (destruct (ch_cases u J) as [->|[(x & t & -> & P)|(v & t & -> & V & Jt)]]; try exact Z; cbn [length] in Hn; try lia).
  - apply escape_long in V. rewrite app_length in Hn. lia.
  - destruct (o_ch_plain x t P) as (v & t' & Q & N & F & O). eapply kr_next; [exact O|]. apply IH; [eapply (shorter []); eauto|]. rewrite Q in J. eapply ch_plain_inv; eauto.
  - eapply kr_next; [apply o_ch_escape; auto|]. apply IH; auto. apply escape_long in V. rewrite app_length in Hn. lia.
Qed.
Lemma chs_run : forall n b, (length b <= n)%nat -> (exists u b', b = u ++ b' /\ l_chars q u /\ out e (IRep char_reader) b true b') \/ l_chars q b.
Proof.
  induction n as [|n IH]; intros b Hn; (destruct b as [|x b]; [right; constructor|]); [cbn in Hn; lia|].
  destruct (d_plain q x) eqn:P.
  - apply d_plain_is in P. destruct (o_ch_plain x b P) as (v & t & Q & N & F & O). pose proof (shorter [] n x b v t Q N Hn) as X.
    rewrite Q in *. destruct (IH t X) as [(u & b' & -> & J & O2)|J].
    + left. exists (v ++ u), b'. split; [rewrite <- app_assoc; auto|]. split; [apply ch_plain; auto|]. eapply or_next; eauto.
    + right. apply ch_plain; auto.
  - assert (NP : ~ l_plain q x) by (rewrite <- d_plain_is; congruence). destruct (escape_dec (x :: b)) as [(u & t & Q & V)|N].
    + rewrite Q in *. rewrite app_length in Hn. pose proof (escape_long _ V). destruct (IH t ltac:(lia)) as [(w & b' & -> & J & O2)|J].
      * left. exists (u ++ w), b'. split; [rewrite <- app_assoc; auto|]. split; [apply lc_escape; auto|]. eapply or_next; [apply o_ch_escape; auto|auto].
      * right. apply lc_escape; auto.
    + left. exists [], (x :: b). split; auto. split; [constructor|]. apply or_stop, o_ch_no; auto.
Qed.
Lemma tk_quote : takes e (RRune (bz q)) (is (bz q)). Proof. apply tk_rune. pose proof (bz_range q). lia. Qed.
Lemma quote_is : is (bz q) q = true. Proof. unfold is. lia. Qed.
Lemma o_quoted u b : l_chars q u -> out e (IR (lua_quoted q)) (q :: u ++ q :: b) true b.
Proof.
  intros J. rewrite quoted_is. apply o_seq. eapply os_next; [eapply o_takes_yes; [apply tk_quote|apply quote_is]|].
  eapply os_next; [apply o_zom; eapply o_chs; [reflexivity|auto]|]. eapply os_next; [eapply o_takes_yes; [apply tk_quote|apply quote_is]|apply os_nil].
Qed.
Lemma k_quoted u : l_chars q u -> stuck e (IR (lua_quoted q)) (q :: u).
Proof.
  intros J. rewrite quoted_is. apply k_seq. eapply ks_next; [eapply o_takes_yes; [apply tk_quote|apply quote_is]|]. apply ks_here, k_zom. eapply k_chs; eauto.
Qed.
Lemma quoted_run b : (exists u rest, b = u ++ q :: rest /\ l_chars q u) \/ l_chars q b \/ out e (IR (lua_quoted q)) (q :: b) false (q :: b).
Proof.
  destruct (chs_run (length b) b (le_n _)) as [(u & b' & -> & J & O)|J]; [|auto]. destruct (first (is (bz q)) b') eqn:G.
  - left. destruct b' as [|y b']; [discriminate|]. cbn [first] in G. apply is_byte in G. rewrite zb_bz in G. subst y. eauto.
  - right. right. rewrite quoted_is. eapply o_seq_no, os_next; [eapply o_takes_yes; [apply tk_quote|apply quote_is]|]. eapply os_next; [apply o_zom; exact O|]. eapply os_stop, o_takes_no; [apply tk_quote|auto].
Qed.
End Quoted.
End Lex.
