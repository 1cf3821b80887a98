(** PropTrack.v - C98 to C104: Baskets and Logs for whole grammars; what is picked, called and logged. *)
From Verif Require Import HearFacts Gather GraphFacts SegFacts ExKit Json Mxt Lua.
From Coq Require Import Lia ZifyBool Sorted Permutation.
From Verif Require Import ReaderSteps ReaderScan ReaderTrans PropReader PropBasket PropLog PropGraph PegBytes PropSegment ScannerRevFacts Utf8Facts ReadFacts.

(* ------------------------------------------------------------------- C98 *)

Lemma mid_some str l1 x l2 : forall i n c, n - c = slen l1 ->
  mid_loop str n (indexed i (l1 ++ x :: l2)) c = skipn (Z.to_nat (i + slen (chunk_bytes l1))) str.
Proof.
  induction l1 as [|[v w] l1 IH]; intros i n c E.
  - destruct x as [v w]. cbn [app indexed mid_loop]. rewrite slen_nil in E.
    replace (c =? n) with true by lia. cbn. rewrite Z.add_0_r. reflexivity.
  - cbn [app indexed mid_loop]. rewrite slen_cons in E. pose proof (slen_nonneg l1).
    replace (c =? n) with false by lia. rewrite IH by lia.
    rewrite chunk_bytes_cons, slen_app. do 2 f_equal. lia.
Qed.
Lemma mid_none str l : forall i n c, ~ (0 <= n - c < slen l) -> mid_loop str n (indexed i l) c = [].
Proof.
  induction l as [|[v w] l IH]; intros i n c E; [reflexivity|].
  cbn [indexed mid_loop]. rewrite slen_cons in E. pose proof (slen_nonneg l).
  replace (c =? n) with false by lia. apply IH. lia.
Qed.
Lemma prefix_chunks str l n : chunked str l -> 0 <= n ->
  fst (get_prefix str n) = chunk_bytes (firstn (Z.to_nat n) l).
Proof.
  intros C N. unfold get_prefix. rewrite (range_str_chunked _ _ C).
  destruct (Z_lt_dec n (slen l)) as [H|H].
  - assert (E : l = firstn (Z.to_nat n) l ++ skipn (Z.to_nat n) l) by (symmetry; apply firstn_skipn).
    assert (F : slen (firstn (Z.to_nat n) l) = n) by (unfold slen in *; rewrite firstn_length; lia).
    destruct (skipn (Z.to_nat n) l) as [|x k] eqn:K.
    { exfalso. rewrite app_nil_r in E. rewrite E in H. lia. }
    rewrite E at 1. rewrite get_prefix_loop_some by lia. cbn [fst]. rewrite Z.add_0_l.
    rewrite <- (chunked_bytes _ _ C). rewrite E at 2. rewrite chunk_bytes_app, firstn_slen. reflexivity.
  - rewrite get_prefix_loop_none by lia. cbn [fst]. rewrite firstn_all2 by (unfold slen in H; lia).
    symmetry. apply (chunked_bytes _ _ C).
Qed.
Lemma sub_chunks str l p n : chunked str l -> 0 <= p -> 0 <= n ->
  sub_string_from str p n = chunk_bytes (firstn (Z.to_nat n) (skipn (Z.to_nat p) l)).
Proof.
  intros C P N. unfold sub_string_from, mid_sub_string. rewrite (range_str_chunked _ _ C).
  destruct (Z_lt_dec p (slen l)) as [H|H].
  - assert (E : l = firstn (Z.to_nat p) l ++ skipn (Z.to_nat p) l) by (symmetry; apply firstn_skipn).
    assert (F : slen (firstn (Z.to_nat p) l) = p) by (unfold slen in *; rewrite firstn_length; lia).
    destruct (skipn (Z.to_nat p) l) as [|x k] eqn:K.
    { exfalso. rewrite app_nil_r in E. rewrite E in H. lia. }
    pose proof C as C'. rewrite E in C'. apply chunked_app_inv in C'. destruct C' as (s1 & rest & W & C2 & S1).
    rewrite E at 1. rewrite mid_some by lia. rewrite Z.add_0_l.
    rewrite W, <- S1. unfold slen at 1. rewrite Nat2Z.id, skipn_app, skipn_all, Nat.sub_diag. cbn [skipn app].
    apply prefix_chunks; assumption.
  - rewrite mid_none by lia. rewrite skipn_all2 by (unfold slen in H; lia). rewrite firstn_nil. reflexivity.
Qed.
(** The line for the entry [en] when the preview is [w]. *)
Definition line {L : GoLib} (en : entry) (w : bytes) : bytes := entry_string en ++ lit " > " ++ quote_str w.
(** [w] is the text at which the Read of the entry [en] began, up to [n] runes of it. *)
Definition begins (str : bytes) (n : Z) (en : entry) (w : bytes) : Prop :=
  exists a b l, str = a ++ b /\ slen a = e_enter en /\ chunked b l /\ w = chunk_bytes (firstn (Z.to_nat n) l).
(** C98: what PrintWithPreview prints: [n] runes from the rune whose number is EnterAt. *)
Theorem C98_preview_exact {L : GoLib} str l n g : chunked str l -> 0 <= n -> Forall (fun en => 0 <= e_enter en) (log_entries g) ->
  preview_lines str n g
  = map (fun en => line en (chunk_bytes (firstn (Z.to_nat n) (skipn (Z.to_nat (e_enter en)) l)))) (log_entries g).
Proof.
  intros C N F. unfold preview_lines. apply map_ext_in. intros en I. rewrite Forall_forall in F.
  rewrite (sub_chunks _ _ _ _ C (F _ I) N). reflexivity.
Qed.
Print Assumptions C98_preview_exact.
(** C98: right for every entry with only ASCII text before it. *)
Theorem C98_preview_of_ascii_partial {L : GoLib} str n g :
  0 <= n ->
  Forall (fun en => exists a b, str = a ++ b /\ slen a = e_enter en /\ Forall (fun d => bz d < 128) a) (log_entries g) ->
  exists ws, Forall2 (begins str n) (log_entries g) ws /\
    preview_lines str n g = map (fun x => line (fst x) (snd x)) (combine (log_entries g) ws).
Proof.
  intros N F. unfold preview_lines. induction F as [|en l (a & b & -> & E & A) F (ws & W & I)].
  { exists []. split; [constructor|reflexivity]. }
  destruct (chunked_exists b) as (k & C). exists (chunk_bytes (firstn (Z.to_nat n) k) :: ws). split.
  { constructor; [|exact W]. exists a, b, k. auto. }
  cbn [map combine]. rewrite I. f_equal. unfold line. cbn [fst snd]. do 4 f_equal.
  pose proof (chunked_ascii a b k A C) as C'.
  rewrite (sub_chunks _ _ _ _ C') by (try assumption; rewrite <- E; unfold slen; lia).
  do 2 f_equal. rewrite <- E. unfold slen. rewrite Nat2Z.id, skipn_app, map_length, Nat.sub_diag.
  rewrite skipn_all2 by (rewrite map_length; lia). reflexivity.
Qed.
Print Assumptions C98_preview_of_ascii_partial.
(** C98: wrong in general: an entry made behind a two byte rune shows the text from one rune later. *)
Theorem C98_preview_refuted {L : GoLib} : ~ forall str n g, 0 <= n ->
  Forall (fun en => exists a b, str = a ++ b /\ slen a = e_enter en) (log_entries g) ->
  exists ws, Forall2 (begins str n) (log_entries g) ws /\
    preview_lines str n g = map (fun x => line (fst x) (snd x)) (combine (log_entries g) ws).
Proof.
  intros H. pose (en := mkEntry 2 (lit "word") 1 0 None).
  pose (t := utf8 228 ++ lit "xyz").
  destruct (H t 2 (mkLog [[en]] 0 1 1 0)) as (ws & W & P).
  { lia. }
  { constructor; [|constructor]. exists (utf8 228), (lit "xyz"). split; reflexivity. }
  change (log_entries (mkLog [[en]] 0 1 1 0)) with [en] in W, P. inversion W as [|x w l k B T]; subst. inversion T; subst.
  destruct B as (a & b & l & E & La & C & ->).
  assert (A : a = utf8 228 /\ b = lit "xyz").
  { unfold t, slen, en in *. cbn [e_enter] in La. destruct a as [|a1 [|a2 [|a3 a]]]; cbn [length] in La; try lia.
    inversion E. split; reflexivity. }
  destruct A as [-> ->].
  assert (C' : chunked (lit "xyz") [(120, lit "x"); (121, lit "y"); (122, lit "z")]).
  { apply (chunked_ascii (lit "xyz") [] []); [repeat constructor|constructor]. }
  rewrite (chunked_fun _ _ _ C C') in P. vm_compute in P. discriminate.
Qed.
Print Assumptions C98_preview_refuted.
Example ex98 {L : GoLib} : preview_lines (lit "let a = 1") 3 (mkLog [[mkEntry 0 (lit "Stat") 1 9 None; mkEntry 4 (lit "Name") 2 5 None]] 0 2 2 0)
  = [lit "1.@ 0 Stat > ""let"""; lit "2..@ 4 Name > ""a =""" ].
Proof. reflexivity. Qed.

(* ------------------------------------------------------------------- C99 *)

(** C99.  Here [R] may be anything: no condition on what is used below Body and BodyTail. *)
Theorem C99_picked_grammar_reads_the_same {L : GoLib} R e b ids r s : complete e -> eall (pickless R) e -> restores e ->
  NoDup ids -> (forall i, In i ids -> (i < length e)%nat) -> rall (pickless R) r = true -> in_text s ->
  let e' := pick_rules b ids e in
  (forall x p, (exists s', reads e' r (new_basket b s) x s' /\ pos (sc s') = p) <-> (exists s', reads e r s x s' /\ pos (sc s') = p)) /\
  (hangs e' r (new_basket b s) <-> hangs e r s) /\ (panics e' r (new_basket b s) <-> panics e r s).
Proof.
  intros C P Q N B Hr I e'. pose proof (pick_altered b ids e N B) as Al. split; [|exact (pick_hangs e e' b _ R C P Q Al r s Hr I)].
  intros x p. split; intros (s' & Rd & E).
  - destruct (pick_same e e' b _ R C P Q Al r s x s' Hr I Rd) as (t & Rt & _ & F). exists t. split; auto. congruence.
  - destruct (pick_back e e' b _ R C P Q Al r s x s' Hr I Rd) as (t & Rt).
    destruct (pick_same e e' b _ R C P Q Al r s x t Hr I Rt) as (t' & Rt' & _ & F). exists t. split; auto.
    destruct (reads_fun _ _ _ _ _ _ _ Rt' Rd) as [_ ->]. congruence.
Qed.
Print Assumptions C99_picked_grammar_reads_the_same.
(** The rules [ids] of grammar [e] may be picked: all rules of [e] are set, there is no Pick or Map yet, every
    rule restores the position when it fails, and the rules used below Body and BodyTail, all in [R], are not in [ids]. *)
Definition may_pick (R : nat -> bool) (ids : list nat) (e : env) : Prop :=
  complete e /\ eall (pickless R) e /\ restores e /\ NoDup ids /\ (forall i, In i ids -> (i < length e)%nat /\ R i = false) /\
  (forall i r, R i = true -> r_reader (get_rule e i) = Some r -> rall (ruleless R) r = true).
Lemma may_altered R ids e b : may_pick R ids e -> altered (rule_pick e b) (chosen ids) e (pick_rules b ids e) /\
  (forall i, R i = true -> chosen ids i = false).
Proof.
  intros (_ & _ & _ & N & B & _). split; [apply pick_altered; auto; intros i H; apply B; auto|].
  intros i H. unfold chosen. destruct (existsb (Nat.eqb i) ids) eqn:E; auto. apply existsb_exists in E as (j & J & E). apply Nat.eqb_eq in E. subst j.
  destruct (B i J). congruence.
Qed.
(** Every Segment in the Basket is what a chosen rule read at that place of the text. *)
Theorem C99_segments_are_reads_of_the_rules {L : GoLib} R e b ids r s x s' g : may_pick R ids e -> rall (pickless R) r = true -> in_text s ->
  reads (pick_rules b ids e) r (new_basket b s) x s' -> In g (get_basket b (hp s')) ->
  exists j s1 s2, In j ids /\ s_info g = r_name (get_rule e j) /\ reads e (RRule j) s1 None s2 /\
    full (sc s1) = full (sc s) /\ s_tok g = mkTok (pos (sc s1)) (pos (sc s2)) /\
    pos (sc s) <= pos (sc s1) <= pos (sc s2) /\ pos (sc s2) <= pos (sc s') <= slen (full (sc s)).
Proof.
  intros M Hr I Rd G. destruct (may_altered R ids e b M) as [Al Ru]. pose proof M as (C & P & Q & N & B & Rb).
  destruct (pick_from_rule e _ b _ R C P Q Al Ru Rb r s x s' g Hr I Rd G) as (j & s1 & s2 & Sj & Ei & Rj & I1 & F1 & T1).
  exists j, s1, s2. split. { unfold chosen in Sj. apply existsb_exists in Sj as (k & K & E). apply Nat.eqb_eq in E. congruence. }
  split; [auto|]. split; [auto|]. split; [auto|]. split; [auto|].
  destruct (pick_new e _ b _ R C P Al Ru Rb r s x s' Hr I Rd) as (_ & Fi & _). rewrite Forall_forall in Fi. specialize (Fi g G).
  unfold BasketFacts.fits in Fi. rewrite T1 in Fi. cbn in Fi.
  destruct (pick_same e _ b _ R C P Q Al r s x s' Hr I Rd) as (t & Rt & F & E).
  assert (W : forall q, rall (pickless R) q = true -> rall no_wrap q = true) by (intros q; apply rall_impl; intros []; auto).
  destruct (C37_reads_forward_inside_text e r s x t) as [_ B']; auto. { intros k q K. apply W. eapply P; eauto. }
  rewrite E in B'. lia.
Qed.
Print Assumptions C99_segments_are_reads_of_the_rules.
(** The Segment of the start rule is the last one. *)
Theorem C99_start_rule_is_last {L : GoLib} R e b ids i s s' : complete e -> eall (pickless R) e ->
  NoDup ids -> (forall i, In i ids -> (i < length e)%nat) -> In i ids -> in_text s ->
  reads (pick_rules b ids e) (RRule i) (new_basket b s) None s' ->
  exists l, get_basket b (hp s') = l ++ [mkSeg (r_name (get_rule e i)) (mkTok (pos (sc s)) (pos (sc s')))].
Proof.
  intros C P N B Hi I Rd. pose proof (pick_altered b ids e N B) as Al.
  apply (pick_last e _ b _ R C P Al i s s'); auto. apply existsb_exists. exists i. split; auto. apply Nat.eqb_refl.
Qed.
Print Assumptions C99_start_rule_is_last.

(** JSON and Lua meet the hypotheses for all rules, MXT for all rules but WordChar, which is used below BodyTail. *)
Definition completeb (e : env) : bool := forallb (fun r => match r_reader r with Some _ => true | None => false end) e.
Lemma complete_check e : completeb e = true -> complete e.
Proof.
  intros H i Hi E. unfold completeb in H. rewrite forallb_forall in H. specialize (H (get_rule e i)).
  rewrite E in H. discriminate H. unfold get_rule. apply nth_In. auto.
Qed.
Definition restoresb (e : env) : bool := forallb (fun r => match r_reader r with Some q => restoring (fun _ => true) q | None => true end) e.
Lemma restores_check e : restoresb e = true -> restores e.
Proof.
  intros H i r E. unfold restoresb in H. rewrite forallb_forall in H. destruct (le_lt_dec (length e) i) as [K|K].
  { rewrite rule_beyond in E by auto. discriminate. }
  specialize (H (get_rule e i)). rewrite E in H. apply H. unfold get_rule. apply nth_In. auto.
Qed.
(** A check of [may_pick]; [below] are the rules used below Body and BodyTail. *)
Definition mayb (below ids : list nat) (e : env) : bool :=
  completeb e && all_rules (pickless (chosen below)) e && restoresb e &&
  forallb (fun i => Nat.ltb i (length e) && negb (chosen below i)) ids &&
  forallb (fun i => match r_reader (get_rule e i) with Some r => rall (ruleless (chosen below)) r | None => true end) below.
Lemma may_check below ids e : NoDup ids -> mayb below ids e = true -> may_pick (chosen below) ids e.
Proof.
  intros N H. unfold mayb in H. rewrite !andb_true_iff in H. destruct H as ((((H1 & H2) & H3) & H4) & H5).
  split; [apply complete_check; auto|]. split; [apply eall_check; auto|]. split; [apply restores_check; auto|]. split; [auto|]. split.
  - intros i Hi. rewrite forallb_forall in H4. specialize (H4 i Hi). apply andb_true_iff in H4 as [H4 H6]. apply Nat.ltb_lt in H4. apply negb_true_iff in H6. auto.
  - intros i r Hi E. apply existsb_exists in Hi as (j & J & X). apply Nat.eqb_eq in X. subst j. rewrite forallb_forall in H5. specialize (H5 i J). rewrite E in H5. auto.
Qed.
(** NewBasketFor(JSON()), NewBasketFor(Lua()), PickWith for all rules of MXT() but WordChar. *)
Lemma json_may_pick {L : GoLib} : may_pick (chosen []) (seq 0 (length json_env)) json_env.
Proof. apply may_check; [apply seq_NoDup|vm_compute; reflexivity]. Qed.
Lemma lua_may_pick {L : GoLib} : may_pick (chosen []) (seq 0 (length lua_env)) lua_env.
Proof. apply may_check; [apply seq_NoDup|vm_compute; reflexivity]. Qed.
Definition mxt_ids : list nat := [mChunks; mChunk; mHeader; mMarker; mNextMarker; mName; mComment; mArrow; mSalt; mEmptyContent; mContent; mWord; mNL].
Lemma mxt_may_pick {L : GoLib} : may_pick (chosen [mWordChar]) mxt_ids mxt_env.
Proof. apply may_check; [|vm_compute; reflexivity]. unfold mxt_ids. repeat constructor; cbn; intuition discriminate. Qed.
(** The demo json-stack: Key, Object, Array, String, Number, Bool and Null are picked. *)
Lemma stack_may_pick {L : GoLib} : may_pick (chosen []) stack_ids json_env.
Proof. apply may_check; [|vm_compute; reflexivity]. unfold stack_ids. repeat constructor; cbn; intuition discriminate. Qed.
Example C99_case {L : GoLib} : may_pick (chosen []) stack_ids json_env /\ rall (pickless (chosen [])) json = true /\
  exists s', reads (pick_rules 0 stack_ids json_env) json (new_basket 0 (mk (lit "{""a"": [1, true]}") 0)) None s' /\
    get_basket 0 (hp s') = [mkSeg (lit "key") (mkTok 1 4); mkSeg (lit "number") (mkTok 7 8);
      mkSeg (lit "bool") (mkTok 10 14); mkSeg (lit "array") (mkTok 6 15); mkSeg (lit "object") (mkTok 0 16)].
Proof.
  split; [apply stack_may_pick|]. split; [vm_compute; reflexivity|]. eexists. split; [run 60%nat|]. vm_compute. reflexivity.
Qed.

(* ------------------------------------------------------------------ C100 *)

(** C100.  Log.Monitor of the rules [ids] (all of them: MonitorGrammar) changes nothing but the log. *)
Theorem C100_monitored_grammar_reads_the_same {L : GoLib} e lg ids r s : complete e -> eall monitorless e ->
  NoDup ids -> (forall i, In i ids -> (i < length e)%nat) -> rall monitorless r = true -> in_text s ->
  let e' := monitor_rules lg ids e in
  (forall x s1, reads e' r s x s1 -> exists s2, reads e r s x s2 /\ same_but_logs s1 s2) /\
  (forall x s2, reads e r s x s2 -> exists s1, reads e' r s x s1 /\ same_but_logs s1 s2) /\
  (panics e' r s <-> panics e r s) /\ (hangs e' r s <-> hangs e r s).
Proof.
  intros C P N B Hr I e'. pose proof (monitor_altered lg ids e N B) as Al.
  assert (Q : forall q, rall monitorless q = true -> rallP wraps_inside q).
  { intros q H. apply rallP_rall in H. revert H. apply rallP_impl. intros y H. destruct y; cbn in *; auto; discriminate. }
  assert (We : eallP wraps_inside e').
  { eapply monitor_all_readers; eauto. - intros i q X. apply Q. eapply P; eauto. - intros i q Si X. exact Logic.I. }
  pose proof (monitor_transparent e' r s I (Q r Hr) We) as T. rewrite (monitor_bare e e' lg _ C P Al) in T.
  rewrite strip_id in T; auto. revert Hr. apply rall_impl. intros []; auto.
Qed.
Print Assumptions C100_monitored_grammar_reads_the_same.
(** Every new entry is about a Read of a chosen rule of the original grammar: its name, where it started, and,
    unless lost, where it ended and whether it failed.  With [fl] (no Body and BodyTail) that Read was in the
    text itself, otherwise in a piece of it. *)
Theorem C100_entries_are_reads_of_the_rules {L : GoLib} e lg ids fl r s x s' : complete e -> eall covered e -> eall (quiet fl) e ->
  NoDup ids -> (forall i, In i ids -> (i < length e)%nat) -> rall (quiet fl) r = true -> rall covered r = true -> in_text s ->
  log_ok (get_log lg (hp s)) -> reads (monitor_rules lg ids e) r s x s' ->
  exists new, log_entries (get_log lg (hp s')) = log_entries (get_log lg (hp s)) ++ new /\
    forall en, In en new -> exists j u s1 y s2, In j ids /\ e_info en = r_name (get_rule e j) /\ reads e (RRule j) s1 y s2 /\
      (exists a z, full (sc s) = a ++ u ++ z) /\ (fl = true -> u = full (sc s)) /\
      full (sc s1) = u /\ e_enter en = pos (sc s1) /\ 0 <= e_enter en <= slen u /\
      (e_exit en = pos (sc s2) /\ okx (e_err en) = okx y \/ e_exit en = 0 /\ e_err en = None).
Proof.
  intros C Cv Q N B Qr Cr I Ok Rd. pose proof (monitor_altered lg ids e N B) as Al.
  destruct (mon_entries e _ lg _ C Cv Al fl r s x s' Q Qr Cr I Ok Rd) as (new & E & F). exists new. split; auto.
  intros en H. rewrite Forall_forall in F. destruct (F en H) as (j & u & s1 & y & s2 & Sj & A1 & A2 & A3 & A4 & A5 & A6 & A7 & A8).
  exists j, u, s1, y, s2. split. { apply existsb_exists in Sj as (i & Hi & Ei). apply Nat.eqb_eq in Ei. congruence. }
  split; [exact A1|]. split; [exact A2|]. split; [exact A3|]. split; [exact A4|]. split; [exact A6|]. split; [exact A7|]. split; [|exact A8].
  rewrite A7, <- A6. destruct A5 as [A5 _]. exact A5.
Qed.
Print Assumptions C100_entries_are_reads_of_the_rules.
(** JSON has no Body; MXT has.  Both may be monitored as a whole. *)
Lemma json_quiet {L : GoLib} : complete json_env /\ eall covered json_env /\ eall (quiet true) json_env /\ rall (quiet true) json = true /\ rall covered json = true.
Proof. split; [apply complete_check; vm_compute; reflexivity|]. split; [apply eall_check; vm_compute; reflexivity|]. split; [apply eall_check; vm_compute; reflexivity|]. split; vm_compute; reflexivity. Qed.
Lemma mxt_quiet {L : GoLib} : complete mxt_env /\ eall covered mxt_env /\ eall (quiet false) mxt_env /\ rall (quiet false) mxt = true /\ rall covered mxt = true.
Proof. split; [apply complete_check; vm_compute; reflexivity|]. split; [apply eall_check; vm_compute; reflexivity|]. split; [apply eall_check; vm_compute; reflexivity|]. split; vm_compute; reflexivity. Qed.
Lemma lua_quiet {L : GoLib} : complete lua_env /\ eall covered lua_env /\ eall (quiet false) lua_env /\ rall (quiet false) lua = true /\ rall covered lua = true.
Proof. split; [apply complete_check; vm_compute; reflexivity|]. split; [apply eall_check; vm_compute; reflexivity|]. split; [apply eall_check; vm_compute; reflexivity|]. split; vm_compute; reflexivity. Qed.
Example C100_case : exists s', reads (L := roomy) (monitor_rules 0 [jElement; jValue; jNumber; jNull] (json_env (L := roomy))) json (mk (lit "[1]") 0) None s' /\
  map (fun en => (e_info en, e_level en, e_enter en)) (log_entries (get_log 0 (hp s')))
  = [(lit "element", 1, 0); (lit "value", 2, 0); (lit "element", 3, 1); (lit "value", 4, 1); (lit "number", 5, 1)].
Proof. eexists. split; [run 60%nat|]. vm_compute. reflexivity. Qed.

(* ------------------------------------------------------------------ C101 *)

Lemma placed_sorted t l : forall f, f <= t -> StronglySorted (fun x y => tok_before (s_tok x) (s_tok y) = true) l ->
  (forall x, In x l -> f <= t_from (s_tok x) /\ ordered (s_tok x) /\ t_to (s_tok x) <= t) -> placed f t l.
Proof.
  induction l as [|x l IH]; intros f F S A; [exact F|]. inversion S as [|? ? S1 F1]; subst. destruct (A x (or_introl eq_refl)) as (A1 & A2 & A3).
  cbn [placed]. split; [auto|]. split; [auto|]. apply IH; auto. intros y Y. destruct (A y (or_intror Y)) as (B1 & B2 & B3).
  rewrite Forall_forall in F1. specialize (F1 y Y). unfold tok_before in F1. split; [lia|auto].
Qed.
(** C101.  Read with a fresh Basket, BuildGraph of what was picked, Leafs of that graph, Segmentate of the text by
    them: this never fails and cuts up the whole text; [m] tells which segments of the result are the leafs, the
    others have no info and are not empty. *)
Theorem C101_leafs_segmentate_the_text {L : GoLib} e r b R s x s' name :
  unpicked_rules b R e -> eall (pickable b R any_reader) e -> rall (pickable b R any_reader) r = true ->
  in_text s -> trk (sc s) = Some b -> get_basket b (hp s) = [] -> reads e r s x s' ->
  exists g out m, build_graph name (get_basket b (hp s')) = Some g /\
    Permutation (below g) (get_basket b (hp s')) /\
    segmentate (sc s') (leafs g) = (out, None) /\ tiles 0 (slen (full (sc s))) out /\
    map snd m = out /\ map snd (filter fst m) = leafs g /\
    Forall (fun y => fst y = false -> s_info (snd y) = [] /\ nonempty (s_tok (snd y))) m.
Proof.
  intros HR He Hr I T Fr Rd.
  destruct (C51_picked_segments_are_consistent e r b R s x s' name HR He Hr I T Fr Rd) as (_ & In1 & _ & g & G & H).
  destruct (C34_graph_is_faithful_nesting name _ g H) as (Ne & _ & Pm & Em & Hu).
  assert (Wr : forall q, rall (pickable b R any_reader) q = true -> rall no_wrap q = true) by apply pickable_wrap.
  destruct (C37_reads_forward_inside_text e r s x s') as [Ft Ps]; auto. { intros i q K. apply Wr. eapply He; eauto. }
  pose proof I as [I1 I2].
  assert (P : placed 0 (slen (full (sc s))) (leafs g)).
  { apply placed_sorted; [lia|eapply C36_leafs_sorted; eauto|]. intros y Y. apply leafs_flat in Y. rewrite flat_split in Y.
    assert (Q : forall z, In z (get_basket b (hp s')) -> 0 <= t_from (s_tok z) /\ ordered (s_tok z) /\ t_to (s_tok z) <= slen (full (sc s))).
    { intros z Z. destruct (In1 z Z) as (B1 & B2 & B3). unfold ordered. lia. }
    destruct Y as [<-|Y].
    - destruct (get_basket b (hp s')) as [|z0 l0] eqn:Eb.
      + rewrite (Em eq_refl). unfold ordered; cbn. lia.
      + destruct (Hu ltac:(discriminate)) as [U1 U2].
        assert (C : tok_covers (mkTok 0 (slen (full (sc s)))) (n_tok g) = true).
        { apply U2. intros z Z. destruct (Q z Z) as (B1 & B2 & B3). unfold tok_covers; cbn. lia. }
        destruct (nested_covers g Ne (n_seg g)) as [O _]; [rewrite flat_split; left; auto|].
        unfold tok_covers, n_tok in C. cbn in C. split; [lia|]. split; [exact O|lia].
    - apply Q. eapply Permutation_in; eauto. }
  unfold segmentate. rewrite Ft. unfold make_token. 
  match goal with |- context [mkSeg [] ?t] => assert (Et : t = mkTok 0 (slen (full (sc s)))) end.
  { pose proof (slen_nonneg (full (sc s))). repeat match goal with |- context [if ?c then _ else _] => destruct c eqn:? end; f_equal; lia. }
  rewrite Et. destruct (C28_segmentate_tiles [] 0 (slen (full (sc s))) (leafs g)) as (out & m & A1 & A2 & A3 & A4 & A5); [lia|exact P|].
  exists g, out, m. split; [exact G|]. auto 9.
Qed.
Print Assumptions C101_leafs_segmentate_the_text.
Example C101_case {L : GoLib} : exists s', reads [] pairs (mkb (lit "xababa") 1 []) None s' /\
  option_map (fun g => segmentate (sc s') (leafs g)) (build_graph (lit "t") (get_basket 0 (hp s')))
  = Some ([mkSeg [] (mkTok 0 1); mkSeg (lit "a") (mkTok 1 2); mkSeg (lit "b") (mkTok 2 3);
           mkSeg (lit "a") (mkTok 3 4); mkSeg (lit "b") (mkTok 4 5); mkSeg [] (mkTok 5 6)], None).
Proof. eexists. split; [run 20%nat|]. vm_compute. reflexivity. Qed.

(* ------------------------------------------------------------------ C102 *)

(** C102.  What is in the Basket after a Read that began at the end of [a] in the text [a ++ b].  [gathers] (Gather.v)
    is the textbook semantics of the readers with the list of the Picks in the parse.  [fed]: what is picked cannot
    match the empty text, where [nl] tells which rules may. *)
Theorem C102_basket_is_the_parse {L : GoLib} e k R nl r s a b x s' :
  unpicked_rules k R e -> eall covered e -> eallP (flat_body k R) e -> eallP (fed k nl) e ->
  (forall j q, r_reader (get_rule e j) = Some q -> eps nl q = true -> nl j = true) ->
  rall covered r = true -> rallP (flat_body k R) r -> rallP (fed k nl) r ->
  at_split s a b -> trk (sc s) = Some k -> get_basket k (hp s) = [] -> reads e r s x s' ->
  exists c' b', pos (sc s') = slen (a ++ b) - slen b' /\
    gathers e k R (slen (a ++ b)) (IR r) (h_cells (hp s)) b (okx x) c' b' (get_basket k (hp s')) /\
    (forall ok2 c2 b2 l2, gathers e k R (slen (a ++ b)) (IR r) (h_cells (hp s)) b ok2 c2 b2 l2 -> l2 = get_basket k (hp s')).
Proof.
  intros HR Ce Fe Ee Nl Cr Fr Er Sp T Em Rd. pose proof (stands_split _ _ _ Sp) as St.
  destruct (reads_marks e k R HR r (a ++ b) (h_cells (hp s)) b [] s x s' Ce Fe Cr Fr) as (c' & b' & l & M & S'); auto.
  { split; auto. } { constructor. }
  destruct (marks_gathers e k R (slen (a ++ b)) nl (IR r) _ _ _ _ _ _ Nl Ee Er M) as [G _]. destruct S' as (S1 & _ & ->). cbn [app].
  exists c', b'. split; [apply (stands_pos _ _ _ _ S1)|]. split; [exact G|]. intros ok2 c2 b2 l2 D. symmetry. eapply gathers_det; eauto.
Qed.
Print Assumptions C102_basket_is_the_parse.
(** Without [fed]: segments are dropped by their end only ([marks], Marks.v). *)
Theorem C102_basket_exact {L : GoLib} e k R r s a b x s' :
  unpicked_rules k R e -> eall covered e -> eallP (flat_body k R) e -> rall covered r = true -> rallP (flat_body k R) r ->
  at_split s a b -> trk (sc s) = Some k -> Forall (fun g => t_to (s_tok g) <= pos (sc s)) (get_basket k (hp s)) -> reads e r s x s' ->
  exists c' b' l, pos (sc s') = slen (a ++ b) - slen b' /\
    marks e k R (slen (a ++ b)) (IR r) (h_cells (hp s)) b (okx x) c' b' l /\
    get_basket k (hp s') = get_basket k (hp s) ++ l.
Proof.
  intros HR Ce Fe Cr Fr Sp T Lw Rd. pose proof (stands_split _ _ _ Sp) as St.
  destruct (reads_marks e k R HR r (a ++ b) (h_cells (hp s)) b (get_basket k (hp s)) s x s' Ce Fe Cr Fr) as (c' & b' & l & M & S'); auto.
  { split; auto. } { unfold low. rewrite <- (stands_pos _ _ _ _ St). exact Lw. }
  destruct S' as (S1 & _ & E). exists c', b', l. split; [apply (stands_pos _ _ _ _ S1)|]. auto.
Qed.
Print Assumptions C102_basket_exact.
(** A failed Use then leaves the Basket as it was: C52 holds. *)
Theorem C102_failed_use_picks_nothing {L : GoLib} e k R nl r s x s' :
  unpicked_rules k R e -> eall covered e -> eallP (flat_body k R) e -> eallP (fed k nl) e ->
  (forall j q, r_reader (get_rule e j) = Some q -> eps nl q = true -> nl j = true) ->
  rall covered r = true -> rallP (flat_body k R) r -> rallP (fed k nl) r ->
  in_text s -> trk (sc s) = Some k -> Forall (fun g => t_to (s_tok g) <= pos (sc s)) (get_basket k (hp s)) ->
  uses e r s (Some x) s' -> pos (sc s') = pos (sc s) /\ get_basket k (hp s') = get_basket k (hp s).
Proof.
  intros HR Ce Fe Ee Nl Cr Fr Er I T Lw [n U]. unfold use in U. apply bind_inv in U as (m & s0 & U1 & U). injection U1 as <- <-.
  apply bind_inv in U as (y & s1 & U1 & U). destruct y as [y|]; [|discriminate].
  apply bind_inv in U as (z & s2 & U2 & U). injection U as <- <-. rewrite to_marker_nonneg in U2 by (destruct I; lia). injection U2 as _ <-.
  split; [reflexivity|]. destruct (text_split s I) as (a & b & Sp). pose proof (stands_split _ _ _ Sp) as St.
  destruct (reads_marks e k R HR r (a ++ b) (h_cells (hp s)) b (get_basket k (hp s)) s (Some y) s1 Ce Fe Cr Fr) as (c' & b' & l & M & S').
  { split; auto. } { unfold low. rewrite <- (stands_pos _ _ _ _ St). exact Lw. } { exists n. exact U1. }
  destruct (marks_gathers e k R (slen (a ++ b)) nl (IR r) _ _ _ _ _ _ Nl Ee Er M) as [_ G].
  pose proof (marks_neat _ _ _ _ _ _ _ _ _ _ _ M) as Nt. destruct S' as (S1 & T1 & E).
  unfold moveto, track. cbn [hp]. rewrite T1, get_put_basket, E, (stands_pos _ _ _ _ St).
  rewrite (cut_update _ (slen (a ++ b) - slen b) (slen (a ++ b) - slen b')); auto; [rewrite fat_cut, app_nil_r; auto| |lia].
  unfold low. rewrite <- (stands_pos _ _ _ _ St). exact Lw.
Qed.
Print Assumptions C102_failed_use_picks_nothing.
(** A check of the hypotheses: [below] are the rules used below Body and BodyTail, [null] those that may match the
    empty text. *)
Definition parseb (k : nat) (below null : list nat) (r : reader) : bool :=
  rall (fun y => covered y && match y with RBody d _ | RBodyTail d _ => unpicked k (chosen below) d
                                        | RPick _ k' a => negb (Nat.eqb k' k) || negb (eps (chosen null) a) | _ => true end) r.
Definition parses (k : nat) (below null : list nat) (e : env) : bool :=
  forallb (fun i => match r_reader (get_rule e i) with
    | Some r => parseb k below null r && (negb (eps (chosen null) r) || chosen null i) && (negb (chosen below i) || unpicked k (chosen below) r)
    | None => true end) (seq 0 (length e)).
Lemma parseb_ok k below null r : parseb k below null r = true ->
  rall covered r = true /\ rallP (flat_body k (chosen below)) r /\ rallP (fed k (chosen null)) r.
Proof.
  intros H. unfold parseb in H. split; [|split]; [|apply rallP_rall in H; revert H; apply rallP_impl..].
  - revert H. apply rall_impl. intros y H. apply andb_true_iff in H. tauto.
  - intros y H. apply andb_true_iff in H as [_ H]. destruct y; cbn in *; auto.
  - intros y H. apply andb_true_iff in H as [_ H]. destruct y; cbn in *; auto. intros ->. rewrite Nat.eqb_refl in H. cbn in H. apply negb_true_iff in H. auto.
Qed.
Lemma parses_ok k below null e : parses k below null e = true ->
  unpicked_rules k (chosen below) e /\ eall covered e /\ eallP (flat_body k (chosen below)) e /\ eallP (fed k (chosen null)) e /\
  (forall j q, r_reader (get_rule e j) = Some q -> eps (chosen null) q = true -> chosen null j = true).
Proof.
  intros H. unfold parses in H. rewrite forallb_forall in H.
  assert (A : forall i r, r_reader (get_rule e i) = Some r -> parseb k below null r = true /\ (eps (chosen null) r = true -> chosen null i = true) /\ (chosen below i = true -> unpicked k (chosen below) r = true)).
  { intros i r E. destruct (le_lt_dec (length e) i) as [K|K]; [rewrite rule_beyond in E by auto; discriminate|].
    specialize (H i). rewrite E in H. specialize (H ltac:(apply in_seq; lia)). rewrite !andb_true_iff in H. destruct H as [[H1 H2] H3].
    split; [auto|]. split; intros Z; [rewrite Z in H2|rewrite Z in H3]; auto. }
  split; [|split; [|split; [|split]]].
  - intros i r Hi E. apply (A i r E). exact Hi.
  - intros i r E. apply (parseb_ok k below null), (A i r E).
  - intros i r E. apply (parseb_ok k below null), (A i r E).
  - intros i r E. apply (parseb_ok k below null), (A i r E).
  - intros j q E. apply (A j q E).
Qed.
Definition json_null_rules : list nat := [jCharacters; jCharacter; jFraction; jExponent; jSign; jWS].
Example C102_case {L : GoLib} : parses 0 [] json_null_rules (pick_rules 0 stack_ids json_env) = true /\ parseb 0 [] json_null_rules json = true.
Proof. split; vm_compute; reflexivity. Qed.
Example C102_case_mxt {L : GoLib} : exists null, parses 0 [mWordChar] null (pick_rules 0 [mChunk; mHeader; mMarker; mName; mArrow] mxt_env) = true /\ parseb 0 [mWordChar] null mxt = true.
Proof. exists [mComment; mEmptyContent; mContent]. split; vm_compute; reflexivity. Qed.

(* ------------------------------------------------------------------ C103 *)

(** C103.  All calls of Map functions and all entries of Logs during a Read: [traces] (Trace.v) is the textbook
    semantics of the readers with the list of what happens, nothing of it is ever taken back. *)
Theorem C103_calls_and_entries_exact {L : GoLib} e r s a b x s' : eall covered e -> rall covered r = true ->
  at_split s a b -> reads e r s x s' ->
  exists c' b' l, pos (sc s') = slen (a ++ b) - slen b' /\
    traces e (slen (a ++ b)) (IR r) (h_cells (hp s)) b (okx x) c' b' l /\
    (forall ok2 c2 b2 l2, traces e (slen (a ++ b)) (IR r) (h_cells (hp s)) b ok2 c2 b2 l2 -> l2 = l) /\
    h_events (hp s') = h_events (hp s) ++ calls l /\
    (forall lg, log_ok (get_log lg (hp s)) -> exists new,
       log_entries (get_log lg (hp s')) = log_entries (get_log lg (hp s)) ++ new /\
    Forall2 (entry_of (l_level (get_log lg (hp s)))) (tries lg l) new).
Proof.
  intros C1 C2 Sp Rd. pose proof (stands_split _ _ _ Sp) as St.
  destruct (reads_traces e r (a ++ b) (h_cells (hp s)) b s x s' C1 C2 St Rd) as (c' & b' & l & Tr & S1 & A1 & A2).
  exists c', b', l. split; [apply (stands_pos _ _ _ _ S1)|]. split; [exact Tr|]. split.
  { intros ok2 c2 b2 l2 D. symmetry. eapply traces_det; eauto. }
  split; [exact A2|]. intros lg Ok. apply (A1 lg Ok).
Qed.
Print Assumptions C103_calls_and_entries_exact.
(** Conversely every derivation is a run. *)
Theorem C103_every_trace_happens {L : GoLib} e r s a b ok c' b' l : at_split s a b -> eall covered e -> rall covered r = true ->
  traces e (slen (a ++ b)) (IR r) (h_cells (hp s)) b ok c' b' l ->
  exists x s', reads e r s x s' /\ okx x = ok /\ pos (sc s') = slen (a ++ b) - slen b' /\ h_events (hp s') = h_events (hp s) ++ calls l.
Proof.
  intros Sp C1 C2 D. pose proof (stands_split _ _ _ Sp) as St.
  destruct (eats_reads e r _ _ _ _ _ _ _ (traces_eats _ _ _ _ _ _ _ _ _ D) St) as (x & s' & Rd & X & S1). exists x, s'.
  split; [exact Rd|]. split; [exact X|]. split; [apply (stands_pos _ _ _ _ S1)|].
  destruct (reads_traces e r _ _ _ _ _ _ C1 C2 St Rd) as (c2 & b2 & l2 & Tr & _ & _ & A2). rewrite A2. do 2 f_equal. symmetry. eapply traces_det; eauto.
Qed.
Print Assumptions C103_every_trace_happens.
(** Opt(Seq(Map(a), b)) on ac: the call for a is not taken back. *)
Example C103_case {L : GoLib} : exists c' b' l, traces [] 2 (IR (RMonitor (lit "m") 0 (ROpt (RSeq [RMap 7 (RLit (lit "a")); RLit (lit "b")])))) [] (lit "ac") true c' b' l /\
  calls l = [(7%nat, mkTok 0 1)] /\ tries 0 l = [ATry 0 (lit "m") 1 0 true 0].
Proof.
  eexists _, (lit "ac"), _. split; [|split].
  - eapply te_monitor, te_opt, (te_seq _ _ _ _ false). eapply ti_seq_next.
    + eapply (te_map _ 7 _ _ _ true _ (lit "c")). apply (te_lit_yes _ (lit "a")).
    + eapply ti_seq_stop. apply te_lit_no. intros t H. discriminate.
  - reflexivity.
  - reflexivity.
Qed.

(* ------------------------------------------------------------------ C104 *)

(** C104 fails for NewBasketFor(MXT()): the text of an arrow is read by a Scanner of its own, so the positions of
    its characters are relative to it. *)
Theorem C104_basket_for_mxt_refuted {L : GoLib} : ~ forall t s' g, slen t < 2 ^ 63 ->
  reads (pick_with 0 mxt_env) mxt (new_basket 0 (mk t 0)) None s' -> In g (get_basket 0 (hp s')) ->
  exists j s1 s2, s_info g = r_name (get_rule mxt_env j) /\ reads mxt_env (RRule j) s1 None s2 /\
    full (sc s1) = t /\ s_tok g = mkTok (pos (sc s1)) (pos (sc s2)).
Proof.
  intros H. set (t := lit "// f abc-->").
  assert (Rd : exists s', reads (pick_with 0 mxt_env) mxt (new_basket 0 (mk t 0)) None s' /\ In (mkSeg (lit "wordchar") (mkTok 2 3)) (get_basket 0 (hp s'))).
  { eexists. split; [run 60%nat|]. vm_compute. do 6 right. left. reflexivity. }
  destruct Rd as (s' & Rd & G). destruct (H t s' _ ltac:(vm_compute; reflexivity) Rd G) as (j & s1 & s2 & Nm & Rj & F & Tk).
  assert (J : j = mWordChar).
  { cbn [s_info] in Nm. do 14 (destruct j as [|j]; [first [reflexivity|exfalso; vm_compute in Nm; discriminate]|]). exfalso. rewrite rule_beyond in Nm by (vm_compute; lia). discriminate. }
  subst j. cbn [s_tok] in Tk. injection Tk as Ps _.
  assert (R2 : exists x, reads mxt_env (RRule mWordChar) s1 (Some x) s1).
  { eexists. exists 2%nat. destruct s1 as [[u p k] h]. cbn [sc full pos] in F, Ps. subst u p. vm_compute. reflexivity. }
  destruct R2 as [x R2]. destruct (reads_fun _ _ _ _ _ _ _ Rj R2) as [X _]. discriminate.
Qed.
Print Assumptions C104_basket_for_mxt_refuted.
(** It holds for any choice of rules without WordChar. *)
Theorem C104_basket_for_mxt_partial {L : GoLib} b ids s x s' g : NoDup ids -> (forall i, In i ids -> (i < length mxt_env)%nat /\ i <> mWordChar) ->
  in_text s -> reads (pick_rules b ids mxt_env) mxt (new_basket b s) x s' -> In g (get_basket b (hp s')) ->
  exists j s1 s2, In j ids /\ s_info g = r_name (get_rule mxt_env j) /\ reads mxt_env (RRule j) s1 None s2 /\
    full (sc s1) = full (sc s) /\ s_tok g = mkTok (pos (sc s1)) (pos (sc s2)).
Proof.
  intros N B I Rd G.
  assert (M : may_pick (chosen [mWordChar]) ids mxt_env).
  { destruct (mxt_may_pick (L := L)) as (M1 & M2 & M3 & _ & _ & M6). split; [auto|]. split; [auto|]. split; [auto|]. split; [auto|]. split; [|auto].
    intros i Hi. destruct (B i Hi) as [B1 B2]. split; auto. unfold chosen. cbn [existsb]. rewrite orb_false_r. apply Nat.eqb_neq. auto. }
  destruct (C99_segments_are_reads_of_the_rules _ _ _ _ mxt s x s' g M ltac:(vm_compute; reflexivity) I Rd G) as (j & s1 & s2 & A1 & A2 & A3 & A4 & A5 & _).
  exists j, s1, s2. auto.
Qed.
Print Assumptions C104_basket_for_mxt_partial.
(** C111.  What holds of C104 is a property of its own. *)
Theorem C111_basket_of_mxt_rules {L : GoLib} b ids s x s' g : NoDup ids -> (forall i, In i ids -> (i < length mxt_env)%nat /\ i <> mWordChar) ->
  in_text s -> reads (pick_rules b ids mxt_env) mxt (new_basket b s) x s' -> In g (get_basket b (hp s')) ->
  exists j s1 s2, In j ids /\ s_info g = r_name (get_rule mxt_env j) /\ reads mxt_env (RRule j) s1 None s2 /\
    full (sc s1) = full (sc s) /\ s_tok g = mkTok (pos (sc s1)) (pos (sc s2)).
Proof. apply C104_basket_for_mxt_partial. Qed.
Print Assumptions C111_basket_of_mxt_rules.
Example C104_case {L : GoLib} : exists s', reads (pick_rules 0 [mChunk; mName; mArrow] mxt_env) mxt (new_basket 0 (mk (lit "// f abc-->") 0)) None s' /\
  get_basket 0 (hp s') = [mkSeg (lit "name") (mkTok 3 4); mkSeg (lit "arrow") (mkTok 5 11); mkSeg (lit "chunk") (mkTok 0 11)].
Proof. eexists. split; [run 60%nat|]. vm_compute. reflexivity. Qed.
