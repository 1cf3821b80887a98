(** PropLeaf.v - C121, C122: the readers of values and of single strings and runes. *)
From Verif Require Import ScannerSafe ExKit ReaderSteps ReaderMisc LogFacts PropRead PropScanner PropReader PropMisc.

(* ------------------------------------------------------------------ C121 *)

(** The field Value of the reader [id]. *)
Definition value_of (id : nat) (s : st) : value := get VNone (h_vals (hp s)) id.
(** [r] returns [x], the scanner is at [p] of the same text with the same tracker, and of all fields Value only that
    of [id] has been written, with [v]. *)
Definition stores {L : GoLib} (e : env) (r : reader) (id : nat) (s : st) (x : option err) (p : Z) (v : value) : Prop :=
  exists s', reads e r s x s' /\ pos (sc s') = p /\ full (sc s') = full (sc s) /\ trk (sc s') = trk (sc s) /\
    value_of id s' = v /\ forall j, j <> id -> value_of j s' = value_of j s.

Lemma vals_track k p h : h_vals (track k p h) = h_vals h.
Proof. destruct k; reflexivity. Qed.
Lemma stores_intro {L : GoLib} {A} e r id s (m : M (A * option err)) (k : A -> value) a x p :
  (forall n, read (S n) e r = (let* ve := m in modh (put_val id (k (fst ve))) ;; ret (snd ve))) ->
  (forall s y s', m s = Ok (y, s') -> h_vals (hp s') = h_vals (hp s)) ->
  answers m s (a, x) p -> stores e r id s x p (k a).
Proof.
  intros E F (s1 & H & H1 & H2 & H3). exists (with_heap (put_val id (k a) (hp s1)) s1). split.
  - exists 1%nat. rewrite E. unfold bind. rewrite H. reflexivity.
  - split; [auto|]. split; [auto|]. split; [auto|]. unfold value_of. change (h_vals (hp (with_heap (put_val id (k a) (hp s1)) s1))) with (put VNone (h_vals (hp s1)) id (k a)).
    split; [apply get_put_same|]. intros j N. rewrite get_put_other by auto. rewrite (F _ _ _ H). reflexivity.
Qed.
Lemma moved_answers {A} (m : M A) s a p : m s = Ok (a, moveto p s) -> answers m s a p.
Proof. intros H. exists (moveto p s). auto. Qed.
Lemma stayed_answers {A} (m : M A) s a : m s = Ok (a, s) -> answers m s a (pos (sc s)).
Proof. intros H. exists s. auto. Qed.
Definition same_vals (s s' : st) : Prop := h_vals (hp s') = h_vals (hp s).
Lemma sv_refl s : same_vals s s.
Proof. reflexivity. Qed.
Lemma sv_trans s s1 s2 : same_vals s s1 -> same_vals s1 s2 -> same_vals s s2.
Proof. unfold same_vals. congruence. Qed.
Lemma sv_move s q : same_vals s (moveto q s).
Proof. apply vals_track. Qed.

(** C121.  Bool, Int and Uint read what ReadBool, ReadInt and ReadUint read and store the value, 0 and false if they
    fail. *)
Theorem C121_bool {L : GoLib} e id s a b format l : at_split s a b -> bool_spellings format = Some l ->
  (forall w v t, In (w, v) l -> b = w ++ t -> stores e (RBool id format) id s None (slen a + slen w) (VBool v)) /\
  ((forall w v t, In (w, v) l -> b <> w ++ t) -> stores e (RBool id format) id s (Some (EReadError (slen a) (lit "bool"))) (slen a) (VBool false)).
Proof.
  intros Sp Hl. assert (P : pos (sc s) = slen a) by apply Sp. destruct (C23_read_bool s a b format l Sp Hl) as [H1 H2]. split.
  - intros w v t I E. apply (stores_intro e _ id s (read_bool format) VBool v); [reflexivity|exact (fr_read_bool same_vals sv_refl sv_trans sv_move format)|]. rewrite <- P. apply moved_answers. eauto.
  - intros N. apply (stores_intro e _ id s (read_bool format) VBool false); [reflexivity|exact (fr_read_bool same_vals sv_refl sv_trans sv_move format)|]. rewrite <- P. apply stayed_answers. auto.
Qed.
Theorem C121_int {L : GoLib} e id s a b base bits neg sg t ds : is_base base -> is_size bits -> bits < 64 ->
  at_split s a b -> sign_split b neg sg t -> longest_digits base (fun v => int_fits bits (sgn neg v)) t ds ->
  (ds <> [] -> stores e (RInt id base bits) id s None (slen a + slen sg + slen ds) (VInt (sgn neg (horner base 0 ds)))) /\
  (ds = [] -> stores e (RInt id base bits) id s (Some (EReadError (slen a) (lit "integer"))) (slen a) (VInt 0)).
Proof.
  intros Hb Hs Lt Sp Sg Ld. destruct (C18_read_int s a b base bits neg sg t ds Hb Hs Lt Sp Sg Ld) as [H1 H2].
  split; intros N; (eapply (stores_intro e _ id s (read_int base bits) VInt); [reflexivity|exact (fr_read_int same_vals sv_refl sv_trans sv_move base bits)|auto]).
Qed.
Theorem C121_uint {L : GoLib} e id s a b base bits ds : is_base base -> is_size bits -> bits < 64 ->
  at_split s a b -> longest_digits base (uint_fits bits) b ds ->
  (ds <> [] -> stores e (RUint id base bits) id s None (slen a + slen ds) (VUint (horner base 0 ds))) /\
  (ds = [] -> stores e (RUint id base bits) id s (Some (EReadError (slen a) (lit "unsigned integer"))) (slen a) (VUint 0)).
Proof.
  intros Hb Hs Lt Sp Ld. assert (P : pos (sc s) = slen a) by apply Sp. destruct (C19_read_uint s a b base bits ds Hb Hs Lt Sp Ld) as [H1 H2].
  split; intros N; (eapply (stores_intro e _ id s (read_uint base bits) VUint); [reflexivity|exact (fr_read_uint same_vals sv_refl sv_trans sv_move base bits)|]); rewrite <- P;
    [apply moved_answers|apply stayed_answers]; auto.
Qed.
(** Every number that fits, 64 bit as well, printed in front of something that is no digit, is stored. *)
Theorem C121_printed_int {L : GoLib} e id s a base bits v t : is_base base -> is_size bits -> int_fits bits v ->
  at_split s a (print_int base v ++ t) -> no_digit_at base t ->
  stores e (RInt id base bits) id s None (slen a + slen (print_int base v)) (VInt v).
Proof.
  intros Hb Hs F Sp N. eapply (stores_intro e _ id s (read_int base bits) VInt); [reflexivity|exact (fr_read_int same_vals sv_refl sv_trans sv_move base bits)|].
  eapply C21_print_read_int; eauto.
Qed.
Theorem C121_printed_uint {L : GoLib} e id s a base bits v t : is_base base -> is_size bits -> uint_fits bits v ->
  at_split s a (print_uint base v ++ t) -> no_digit_at base t ->
  stores e (RUint id base bits) id s None (slen a + slen (print_uint base v)) (VUint v).
Proof.
  intros Hb Hs F Sp N. assert (P : pos (sc s) = slen a) by apply Sp. eapply (stores_intro e _ id s (read_uint base bits) VUint); [reflexivity|exact (fr_read_uint same_vals sv_refl sv_trans sv_move base bits)|].
  rewrite <- P. apply moved_answers. eapply C21_print_read_uint; eauto.
Qed.
(** With a format, base or size that is not supported they fail, do not move and store 0 and false. *)
Theorem C121_unsupported {L : GoLib} e id s format base bits :
  (bool_spellings format = None -> exists x, stores e (RBool id format) id s (Some x) (pos (sc s)) (VBool false)) /\
  (~ is_base base \/ ~ is_size bits ->
     (exists x, stores e (RInt id base bits) id s (Some x) (pos (sc s)) (VInt 0)) /\
     (exists x, stores e (RUint id base bits) id s (Some x) (pos (sc s)) (VUint 0))).
Proof.
  split.
  - intros N. eexists. apply (stores_intro e _ id s (read_bool format) VBool false); [reflexivity|exact (fr_read_bool same_vals sv_refl sv_trans sv_move format)|].
    apply stayed_answers. apply C23_read_bool_format. auto.
  - intros N. assert (Hi : forall p, char_func base <> None -> int_bounds bits <> Some p).
    { intros p Hc Hb. destruct (char_func base) eqn:E; [|auto]. apply char_func_some in E. destruct N as [N|N]; [auto|]. unfold int_bounds in Hb. unfold is_size in N.
      destruct (bits =? 8) eqn:?; [lia|]. destruct (bits =? 16) eqn:?; [lia|]. destruct (bits =? 32) eqn:?; [lia|]. destruct (bits =? 64) eqn:?; [lia|discriminate]. }
    assert (Hu : forall p, char_func base <> None -> uint_max bits <> Some p).
    { intros p Hc Hb. destruct (char_func base) eqn:E; [|auto]. apply char_func_some in E. destruct N as [N|N]; [auto|]. unfold uint_max in Hb. unfold is_size in N.
      destruct (bits =? 8) eqn:?; [lia|]. destruct (bits =? 16) eqn:?; [lia|]. destruct (bits =? 32) eqn:?; [lia|]. destruct (bits =? 64) eqn:?; [lia|discriminate]. }
    assert (Ri : exists x, read_int base bits s = Ok ((0, Some x), s)).
    { unfold read_int. destruct (char_func base) as [cf|]; [|eexists; reflexivity]. destruct (int_bounds bits) as [[mn mx]|]; [|eexists; reflexivity]. exfalso. apply (Hi (mn, mx)); congruence. }
    assert (Ru : exists x, read_uint base bits s = Ok ((0, Some x), s)).
    { unfold read_uint. destruct (char_func base) as [cf|]; [|eexists; reflexivity]. destruct (uint_max bits) as [mx|]; [|eexists; reflexivity]. exfalso. apply (Hu mx); congruence. }
    destruct Ri as [x Hx], Ru as [y Hy]. split; [exists x|exists y].
    + eapply (stores_intro e _ id s (read_int base bits) VInt 0); [reflexivity|exact (fr_read_int same_vals sv_refl sv_trans sv_move base bits)|apply stayed_answers; auto].
    + eapply (stores_intro e _ id s (read_uint base bits) VUint 0); [reflexivity|exact (fr_read_uint same_vals sv_refl sv_trans sv_move base bits)|apply stayed_answers; auto].
Qed.
Print Assumptions C121_bool.
Print Assumptions C121_int.
Print Assumptions C121_uint.
Print Assumptions C121_printed_int.
Print Assumptions C121_printed_uint.
Print Assumptions C121_unsupported.
(** Case: -7 is read and stored in the second of two readers; it stays there when the sequence fails. *)
Example C121_here {L : GoLib} : exists x s', reads [] (RSeq [RBool 0 (lit "l"); RInt 1 10 8; RLit (lit ";")]) (init_st (lit "true-7,")) (Some x) s' /\
  value_of 0 s' = VBool true /\ value_of 1 s' = VInt (-7) /\ pos (sc s') = 0.
Proof. do 2 eexists. split; [run 9%nat|vm_compute; auto]. Qed.

(* ------------------------------------------------------------------ C122 *)

(** [r] reads the [d] next bytes. *)
Definition takes {L : GoLib} (e : env) (r : reader) (s : st) (d : Z) : Prop := reads e r s None (moveto (pos (sc s) + d) s).
(** [r] fails with [w], everything is as it was. *)
Definition refuses {L : GoLib} (e : env) (r : reader) (s : st) (w : bytes) : Prop := reads e r s (Some (EReadError (pos (sc s)) w)) s.
(** [r] reads one rune that satisfies P and else fails; [l] are the chunks behind the scanner. *)
Definition takes_one {L : GoLib} (e : env) (r : reader) (w : bytes) (P : Z -> Prop) (s : st) (l : list (Z * bytes)) : Prop :=
  match l with
  | [] => refuses e r s w
  | (v, c) :: _ => (P v -> takes e r s (slen c)) /\ (~ P v -> refuses e r s w)
  end.
Section Leaf.
Context {L : GoLib} (e : env) (r : reader) (w : bytes) (m : M bool).
Hypothesis E : forall n, read (S n) e r = (let* ok := m in error_if_false ok w).
Lemma leaf_yes s d : yes_by m s d -> takes e r s d.
Proof. intros H. exists 1%nat. rewrite E. unfold bind. rewrite H. reflexivity. Qed.
Lemma leaf_no s : no m s -> refuses e r s w.
Proof. intros H. exists 1%nat. rewrite E. unfold bind. rewrite H. reflexivity. Qed.
Lemma leaf_one P s l : one_rune P m s l -> takes_one e r w P s l.
Proof. destruct l as [|[v c] l]; cbn; [apply leaf_no|]. intros [H1 H2]. split; auto using leaf_yes, leaf_no. Qed.
Lemma leaf_panic s : m s = Panic -> panics e r s.
Proof. intros H. exists 1%nat. rewrite E. unfold bind. rewrite H. reflexivity. Qed.
End Leaf.

(** C122.  Lit, Fold, AtEnd and the readers of one rune. *)
Theorem C122_lit {L : GoLib} e str s a b : at_split s a b ->
  (forall t, b = str ++ t -> takes e (RLit str) s (slen str)) /\
  ((forall t, b <> str ++ t) -> refuses e (RLit str) s (what e (RLit str))).
Proof.
  intros Sp. destruct (C05_if s a b str Sp) as [H1 H2]. split.
  - intros t Eb. eapply leaf_yes; [reflexivity|eauto].
  - intros N. eapply leaf_no; [reflexivity|eauto].
Qed.
Theorem C122_fold {L : GoLib} e str s a b : at_split s a b ->
  (forall c d, b = c ++ d -> slen c = slen str -> fold_equal c str -> takes e (RFold str) s (slen str)) /\
  (forall c d, b = c ++ d -> slen c = slen str -> ~ fold_equal c str -> refuses e (RFold str) s (what e (RFold str))) /\
  (slen b < slen str -> panics e (RFold str) s).
Proof.
  intros Sp. destruct (C08_if_fold_exact s a b str Sp) as (H1 & H2 & H3). split; [|split].
  - intros c d Eb Le F. eapply leaf_yes; [reflexivity|eauto].
  - intros c d Eb Le F. eapply leaf_no; [reflexivity|eauto].
  - intros Lt. eapply leaf_panic; [reflexivity|auto].
Qed.
Theorem C122_at_end {L : GoLib} e s a b : at_split s a b ->
  (b = [] -> reads e RAtEnd s None s) /\ (b <> [] -> refuses e RAtEnd s (what e RAtEnd)).
Proof.
  intros (Ef & Ep & _). split; intros Eb.
  - exists 1%nat. cbn. unfold bind, at_end, gets. subst b. rewrite app_nil_r in Ef. rewrite Ef, Ep, Z.eqb_refl. reflexivity.
  - exists 1%nat. cbn. unfold bind, at_end, gets. replace (slen (full (sc s)) =? pos (sc s)) with false; [reflexivity|].
    rewrite Ef, Ep. unfold slen. rewrite app_length. destruct b; [congruence|]. cbn [length]. lia.
Qed.
Theorem C122_one_rune {L : GoLib} e s a b l : at_split s a b -> chunked b l ->
  (forall mn mx, takes_one e (RBetween mn mx) (what e (RBetween mn mx)) (fun v => mn <= v <= mx) s l) /\
  (forall w f, takes_one e (RMatch w f) w (fun v => f v = true) s l) /\
  (forall c, l <> [] \/ c <> 0xFFFD -> takes_one e (RRune c) (what e (RRune c)) (fun v => v = c) s l) /\
  (forall str ls, chunked str ls -> l <> [] \/ ~ In 0xFFFD (map fst ls) -> takes_one e (RAnyRune str) (what e (RAnyRune str)) (fun v => In v (map fst ls)) s l).
Proof.
  intros Sp C. split; [|split; [|split]]; intros; (eapply leaf_one; [reflexivity|]).
  - eapply C09_if_between; eauto.
  - eapply C09_if_match; eauto.
  - eapply C09_if_rune_partial; eauto.
  - eapply C09_if_any_rune_partial; eauto.
Qed.
(** Rune and AnyRune read U+FFFD at the end of the text, where nothing is. *)
Theorem C122_at_the_end {L : GoLib} e s a str ls : at_split s a [] ->
  takes e (RRune 0xFFFD) s 0 /\ (chunked str ls -> In 0xFFFD (map fst ls) -> takes e (RAnyRune str) s 0).
Proof.
  intros Sp. split; [eapply leaf_yes; [reflexivity|eapply C09_if_rune_at_end; eauto]|].
  intros C I. eapply leaf_yes; [reflexivity|eapply C09_if_any_rune_at_end; eauto].
Qed.
Print Assumptions C122_lit.
Print Assumptions C122_fold.
Print Assumptions C122_at_end.
Print Assumptions C122_one_rune.
Print Assumptions C122_at_the_end.
Example C122_here {L : GoLib} : takes [] (RLit (lit "ab")) (init_st (lit "abc")) 2 /\ refuses [] (RLit (lit "ac")) (init_st (lit "abc")) (what [] (RLit (lit "ac"))) /\
  takes [] (RBetween 0x61 0x7A) (init_st (lit "abc")) 1.
Proof. split; [|split]; exists 1%nat; reflexivity. Qed.

(* ------------------------------------------------------------------ C123 *)

(** Alternatives that fail one after the other without a trace; the last error is reported. *)
Lemma any_all_refuse {L : GoLib} e rs s : Forall (fun r => exists w, refuses e r s w) rs -> exists ws, length ws = length rs /\
  fails e rs s (map (EReadError (pos (sc s))) ws) s.
Proof.
  induction 1 as [|r rs [w W] _ (ws & Lw & IH)]; [exists []; split; [auto|constructor]|]. exists (w :: ws). split; [cbn; auto|]. cbn. econstructor; eauto.
Qed.
Lemma any_takes {L : GoLib} e rs1 r rs2 s d : in_text s -> Forall (fun q => exists w, refuses e q s w) rs1 -> takes e r s d -> takes e (RAny (rs1 ++ r :: rs2)) s d.
Proof.
  intros I F T. destruct (any_all_refuse e rs1 s F) as (ws & _ & Fl). apply C39_any_is_ordered_choice; auto. left. split; auto. exists rs1, r, rs2, (map (EReadError (pos (sc s))) ws), s. auto.
Qed.
Lemma any_refuses {L : GoLib} e rs s : in_text s -> rs <> [] -> Forall (fun q => exists w, refuses e q s w) rs ->
  exists w, reads e (RAny rs) s (Some (EReadError (pos (sc s)) w)) (moveto (pos (sc s)) s).
Proof.
  intros I Ne F. destruct (any_all_refuse e rs s F) as (ws & Lw & Fl). destruct ws as [|w0 ws]; [destruct rs; [congruence|discriminate]|]. 
  destruct (@exists_last _ (w0 :: ws)) as (ws1 & w & Ew); [discriminate|]. exists w. apply C39_any_is_ordered_choice; auto. right.
  do 3 eexists. split; [exact Fl|]. split; [auto|]. split; [reflexivity|]. left. rewrite Ew, map_app. exists (pos (sc s)), w, (map (EReadError (pos (sc s))) ws1), [].
  split; [auto|]. split; [apply I|]. split; [reflexivity|]. split; [|intros ? ? []]. intros m' w' Hi. apply in_map_iff in Hi as (y & Ey & _). injection Ey as -> _. lia.
Qed.

(** C123.  Holey and the readers made of others.  Holey reads one rune of the range that is no hole. *)
Theorem C123_holey {L : GoLib} e mn mx holes lh s a b l : at_split s a b -> chunked b l -> chunked holes lh ->
  l <> [] \/ ~ (mn <= 0xFFFD <= mx) \/ In 0xFFFD (map fst lh) ->
  takes_one e (RHoley mn mx holes) (what e (RHoley mn mx holes)) (fun v => mn <= v <= mx /\ ~ In v (map fst lh)) s l.
Proof.
  intros Sp C Ch Ne.
  assert (T : forall v i, decode_rune b = (v, i) -> is_scalar v -> read 1 e (RHoley mn mx holes) s =
    (if in_range mn v mx && negb (contains_rune holes v) then (let* ok := move (Z.of_nat i) in error_if_false ok (what e (RHoley mn mx holes))) s else error_for (what e (RHoley mn mx holes)) s)).
  { intros v i D _. cbn [read]. rewrite (bind_ok _ _ _ _ _ (s_tail_split s a b Sp)), D. destruct (_ && _); reflexivity. }
  assert (K : forall v, is_scalar v -> in_range mn v mx && negb (contains_rune holes v) = true <-> mn <= v <= mx /\ ~ In v (map fst lh)).
  { intros v Sv. rewrite <- (contains_rune_iff holes lh Ch v Sv). unfold in_range. destruct (contains_rune holes v); intuition (auto; try lia; try discriminate). }
  destruct l as [|[v c] l]; cbn [takes_one].
  - apply chunked_nil_r in C. subst b. exists 1%nat. rewrite (T 0xFFFD 0%nat eq_refl) by (unfold is_scalar; lia).
    destruct (in_range mn 0xFFFD mx && negb (contains_rune holes 0xFFFD)) eqn:E; [|reflexivity]. apply K in E; [|unfold is_scalar; lia]. exfalso. tauto.
  - pose proof (chunked_decode _ _ _ _ C) as D. assert (Sv : is_scalar v) by (pose proof (decode_scalar b) as X; rewrite D in X; exact X).
    split; intros H; exists 1%nat; rewrite (T v _ D Sv).
    + rewrite (proj2 (K v Sv) H). unfold bind. fold (slen c). rewrite (move_chunk _ _ _ _ _ _ Sp C). reflexivity.
    + destruct (in_range mn v mx && negb (contains_rune holes v)) eqn:E; [|reflexivity]. apply K in E; [|auto]. tauto.
Qed.
Theorem C123_digit {L : GoLib} e s a b l : at_split s a b -> chunked b l ->
  takes_one e digit (what e digit) (fun v => exists d, 0 <= d <= 9 /\ v = 0x30 + d) s l.
Proof.
  intros Sp C. destruct (C122_one_rune e s a b l Sp C) as (H & _). specialize (H 0x30 0x39). destruct l as [|[v c] l]; cbn [takes_one] in *; [exact H|].
  destruct H as [H1 H2]. split; intros X; [apply H1|apply H2]; [destruct X as (d & X & ->); lia|]. intros Y. apply X. exists (v - 0x30). lia.
Qed.
Theorem C123_hex_digit {L : GoLib} e s a b l : at_split s a b -> chunked b l ->
  reads_one e hex_digit_reader (fun v => exists d, 0 <= d <= 9 /\ v = 0x30 + d \/ 10 <= d <= 15 /\ (v = 0x61 + d - 10 \/ v = 0x41 + d - 10)) s l.
Proof.
  intros Sp C. destruct (C58_build_between_any e [0x30; 0x39; 0x61; 0x66; 0x41; 0x46] s a b l Sp C) as (H & _).
  specialize (H [(0x30, 0x39); (0x61, 0x66); (0x41, 0x46)] eq_refl). change (build_between_any [0x30; 0x39; 0x61; 0x66; 0x41; 0x46]) with hex_digit_reader in H.
  destruct l as [|[v c] l]; [exact H|]. destruct H as [H1 H2]. split; intros X; [apply H1|apply H2].
  - destruct X as (d & X). unfold in_ranges. destruct X as [X|[X [Y|Y]]]; [exists 0x30, 0x39|exists 0x61, 0x66|exists 0x41, 0x46]; cbn [In]; split; auto; lia.
  - intros (mn & mx & I & R). apply X. cbn [In] in I. destruct I as [I|[I|[I|[]]]]; injection I as <- <-; [exists (v - 0x30)|exists (v - 0x61 + 10)|exists (v - 0x41 + 10)]; lia.
Qed.
Theorem C123_ws {L : GoLib} e s a b l : at_split s a b -> chunked b l ->
  takes_one e ws (what e ws) (fun v => In v [0x20; 0x0D; 0x0A; 0x09]) s l.
Proof.
  intros Sp C. destruct (C122_one_rune e s a b l Sp C) as (_ & _ & _ & H).
  refine (H [x20; x0d; x0a; x09] [(0x20, [x20]); (0x0D, [x0d]); (0x0A, [x0a]); (0x09, [x09])] _ _); [chunks_here|]. right. cbn. intuition discriminate.
Qed.
(** A newline is LF or CR LF. *)
Theorem C123_nl {L : GoLib} e s a b : at_split s a b ->
  (forall t, b = x0a :: t -> takes e nl s 1) /\ (forall t, b = x0d :: x0a :: t -> takes e nl s 2) /\
  ((forall t, b <> x0a :: t /\ b <> x0d :: x0a :: t) -> exists w, reads e nl s (Some (EReadError (pos (sc s)) w)) (moveto (pos (sc s)) s)).
Proof.
  intros Sp. pose proof (in_text_split _ _ _ Sp) as I. destruct (C122_lit e [x0a] s a b Sp) as [A1 A2]. destruct (C122_lit e [x0d; x0a] s a b Sp) as [B1 B2]. split; [|split].
  - intros t E. apply (any_takes e [] (RLit [x0a]) [RLit [x0d; x0a]]); [auto|constructor|]. exact (A1 t E).
  - intros t E. apply (any_takes e [RLit [x0a]] (RLit [x0d; x0a]) []); [auto| |exact (B1 t E)]. constructor; [|constructor]. eexists. apply A2. intros u Eu. rewrite E in Eu. discriminate.
  - intros N. apply any_refuses; [auto|discriminate|]. constructor; [|constructor; [|constructor]]; eexists; [apply A2|apply B2]; intros t E; destruct (N t) as [N1 N2]; auto.
Qed.
(** AnyFold: the first string that is there up to case folding is read.  It panics at the first string that is longer
    than the rest of the text. *)
Theorem C123_any_fold {L : GoLib} e s a b : at_split s a b ->
  let differs str := exists c d, b = c ++ d /\ slen c = slen str /\ ~ fold_equal c str in
  (forall l1 str l2 c d, Forall differs l1 -> b = c ++ d -> slen c = slen str -> fold_equal c str -> takes e (any_fold (l1 ++ str :: l2)) s (slen str)) /\
  (forall l, l <> [] -> Forall differs l -> exists w, reads e (any_fold l) s (Some (EReadError (pos (sc s)) w)) (moveto (pos (sc s)) s)) /\
  (forall l1 str l2, Forall differs l1 -> slen b < slen str -> panics e (any_fold (l1 ++ str :: l2)) s).
Proof.
  intros Sp differs. pose proof (in_text_split _ _ _ Sp) as I.
  assert (F : forall l, Forall differs l -> Forall (fun q => exists w, refuses e q s w) (map RFold l)).
  { induction 1 as [|str l (c & d & E & Ls & N) _ IH]; cbn; constructor; auto. eexists. destruct (C122_fold e str s a b Sp) as (_ & H & _). eapply H; eauto. }
  split; [|split].
  - intros l1 str l2 c d Fl E Ls Q. unfold any_fold. rewrite map_app. cbn [map]. apply any_takes; auto. destruct (C122_fold e str s a b Sp) as (H & _). eapply H; eauto.
  - intros l Ne Fl. apply any_refuses; auto. destruct l; [congruence|discriminate].
  - intros l1 str l2 Fl Lt. exists 2%nat. unfold any_fold.
    change (any_loop (map (read 1 e) (map RFold (l1 ++ str :: l2))) (pos (sc s)) [] s = Panic). generalize (@nil err).
    assert (St : forall str, differs str -> exists w, read 1 e (RFold str) s = Ok (Some w, s)).
    { intros x (c & d & E & Ls & N). destruct (C08_if_fold_exact s a b x Sp) as (_ & H & _). eexists. cbn [read]. unfold bind. rewrite (H c d E Ls N). reflexivity. }
    induction Fl as [|x l1 D _ IH]; intros errs; cbn [map app any_loop]; unfold bind.
    + destruct (C08_if_fold_exact s a b str Sp) as (_ & _ & H). cbn [read]. unfold bind. rewrite (H Lt). reflexivity.
    + destruct (St x D) as [w ->]. apply IH.
Qed.
Print Assumptions C123_holey.
Print Assumptions C123_digit.
Print Assumptions C123_hex_digit.
Print Assumptions C123_ws.
Print Assumptions C123_nl.
Print Assumptions C123_any_fold.
(** Case: CR LF is one newline of two bytes, and CR alone is none. *)
Example C123_here {L : GoLib} : takes [] nl (init_st [x0d; x0a; x61]) 2 /\ (exists w, reads [] nl (init_st [x0d; x61]) (Some (EReadError 0 w)) (init_st [x0d; x61])) /\
  takes [] (RHoley 0x20 0x7E (lit "()")) (init_st (lit "a(")) 1.
Proof. split; [exists 3%nat; reflexivity|]. split; [eexists; exists 3%nat; vm_compute; reflexivity|exists 1%nat; reflexivity]. Qed.
