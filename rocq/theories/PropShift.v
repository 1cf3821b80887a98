(** PropShift.v - C163: what stands before the position does not matter to readers; C164: nor to forward Scanner
    methods; C165: what stands behind the position does not matter to backward Scanner methods. *)
From Verif Require Import ReaderScan ReaderTrans ReaderSteps ExKit Json Mxt Lua PegBytes BasketFacts UseFacts LuaSyntax ShiftRev Shift.
From Coq Require Import Lia ZifyBool.

(* ------------------------------------------------------------------ C163 *)

(** A Wrap function that does the same, seen from the position, whatever stands before it. *)
Definition looks_ahead (f : read_func) : Prop := forall a a' b d, 0 <= d <= slen b ->
  let x := f (a ++ b) (slen a + d) in let y := f (a' ++ b) (slen a' + d) in
  Forall2 (fun p q => p - slen a = q - slen a' /\ 0 <= p - slen a <= slen b) (fst x) (fst y) /\ (snd x = None <-> snd y = None).
Definition forward_reader (r : reader) : Prop := match r with RWrap _ f => looks_ahead f | _ => True end.
(** Calls of the same functions in the same order, told places of the same length. *)
Definition like_calls (before before' after after' : list (nat * token)) : Prop :=
  exists l l', after = before ++ l /\ after' = before' ++ l' /\
  Forall2 (fun x y => fst x = fst y /\ t_to (snd x) - t_from (snd x) = t_to (snd y) - t_from (snd y)) l l'.

Lemma f2_impl {A B} (P Q : A -> B -> Prop) l l' : (forall x y, P x y -> Q x y) -> Forall2 P l l' -> Forall2 Q l l'.
Proof. intros H. induction 1; constructor; auto. Qed.
Lemma forward_placed {L : GoLib} r : rallP forward_reader r -> rallP (placed false false false) r.
Proof.
  apply rallP_impl. intros q H. destruct q; cbn [placed forward_reader] in *; auto; try discriminate. intros a a' b d B. specialize (H a a' b d B) as [H1 H2]. split.
  - eapply f2_impl; [|exact H1]. cbn beta. intros p q [P Q]. exists (p - slen a). lia.
  - destruct (snd (f (a ++ b) _)), (snd (f (a' ++ b) _)); cbn; auto; [intros K; discriminate|destruct H2 as [_ H2]; discriminate (H2 eq_refl)|destruct H2 as [H2 _]; discriminate (H2 eq_refl)].
Qed.
Definition none (_ : nat) : list segment := [].
Lemma start_rel strict flat D s t a a' b : at_split s a b -> at_split t a' b -> h_cells (hp s) = h_cells (hp t) -> h_vals (hp s) = h_vals (hp t) ->
  rel strict flat D (h_events (hp s)) (h_events (hp t)) false none none a a' b s t.
Proof.
  intros (F & P & B) (F' & P' & B') C V. split; [exact F|]. split; [exact F'|]. split; [exact B|]. split; [exact B'|]. split.
  - exists 0. pose proof (slen_nonneg b). lia.
  - split; [|discriminate]. split; [exact C|]. split; [exact V|]. split; [|split; discriminate]. exists [], []. rewrite !app_nil_r. auto.
Qed.
Theorem C163_beginning_does_not_matter {L : GoLib} e r s t a a' b : eallP forward_reader e -> rallP forward_reader r ->
  at_split s a b -> at_split t a' b -> h_cells (hp s) = h_cells (hp t) -> h_vals (hp s) = h_vals (hp t) ->
  (forall x s', reads e r s x s' -> exists y t', reads e r t y t' /\ (x = None <-> y = None) /\
     pos (sc s') - slen a = pos (sc t') - slen a' /\ h_cells (hp s') = h_cells (hp t') /\ h_vals (hp s') = h_vals (hp t') /\
     like_calls (h_events (hp s)) (h_events (hp t)) (h_events (hp s')) (h_events (hp t'))) /\
  (panics e r s <-> panics e r t) /\ (hangs e r s <-> hangs e r t).
Proof.
  intros He Hr Ss St C V.
  assert (K : forall n, match read n e r s, read n e r t with
    | Ok (u, s'), Ok (v, t') => oerrs false a a' b u v /\ rel false false (slen a' - slen a) (h_events (hp s)) (h_events (hp t)) false none none a a' b s' t'
    | Panic, Panic => True | Fuel, Fuel => True | _, _ => False end).
  { intros n. apply (sims_read false false (slen a' - slen a) (h_events (hp s)) (h_events (hp t)) false none none e).
    - intros i q Q. apply forward_placed, (He i q Q).
    - left. reflexivity.
    - apply forward_placed, Hr.
    - apply start_rel; auto. }
  split; [|split].
  - intros x s' [n H]. specialize (K n). rewrite H in K. destruct (read n e r t) as [[y t']| |] eqn:H'; try contradiction.
    destruct K as [O (R1 & R2 & R3 & R4 & (d & B & P & Q) & (C' & V' & (l & l' & E1 & E2 & F) & _) & _)].
    exists y, t'. split; [exists n; exact H'|]. split; [destruct x, y; try contradiction; split; congruence|].
    split; [lia|]. split; [exact C'|]. split; [exact V'|]. exists l, l'. split; [exact E1|]. split; [exact E2|].
    eapply f2_impl; [|exact F]. intros [i k] [i' k'] [Q1 (z & _ & Q2)]. cbn in *. subst. cbn. split; [reflexivity|lia].
  - split; intros [n H]; exists n; specialize (K n); rewrite H in K.
    + destruct (read n e r t) as [[y t']| |]; tauto.
    + destruct (read n e r s) as [[y t']| |]; tauto.
  - split; intros H n; specialize (K n); specialize (H n); rewrite H in K.
    + destruct (read n e r t) as [[y t']| |]; tauto.
    + destruct (read n e r s) as [[y t']| |]; tauto.
Qed.
Print Assumptions C163_beginning_does_not_matter.

(** Readers whose errors are ReadErrors: no invalid readers and reader with wrong formats, no Any without readers. *)
Definition names_places (r : reader) : Prop :=
  match r with
  | RAny rs => rs <> []
  | RBool _ f => In f [ []; lit "*"; lit "l"; lit "U"; lit "Cc" ]
  | RInt _ base bits | RUint _ base bits => In base [8; 10; 16] /\ In bits [8; 16; 32; 64]
  | RInvalid _ | RGrammar _ _ _ | RWrap _ _ => False
  | _ => True
  end.
Lemma names_placed {L : GoLib} r : rallP names_places r -> rallP (placed true false false) r.
Proof.
  apply rallP_impl. intros q H. destruct q; cbn [placed names_places] in *; auto; try contradiction.
  - intros _. cbn [In] in H. unfold good_format. decompose [or] H; subst; try reflexivity; contradiction.
  - intros _. destruct H as [H1 H2]. cbn [In] in *. decompose [or] H1; decompose [or] H2; subst; try reflexivity; contradiction.
  - intros _. destruct H as [H1 H2]. cbn [In] in *. decompose [or] H1; decompose [or] H2; subst; try reflexivity; contradiction.
Qed.
(** The same error for the place that lies equally far. *)
Theorem C163_errors {L : GoLib} e r s t a a' b x s' : eallP names_places e -> rallP names_places r ->
  at_split s a b -> at_split t a' b -> h_cells (hp s) = h_cells (hp t) -> h_vals (hp s) = h_vals (hp t) ->
  reads e r s (Some x) s' ->
  exists d w t', x = EReadError (slen a + d) w /\ 0 <= d <= slen b /\ reads e r t (Some (EReadError (slen a' + d) w)) t'.
Proof.
  intros He Hr Ss St C V [n H].
  pose proof (sims_read true false (slen a' - slen a) (h_events (hp s)) (h_events (hp t)) false none none e (fun i q Q => names_placed q (He i q Q)) n r a a' b
    (or_introl eq_refl) (names_placed r Hr) s t (start_rel _ _ _ s t a a' b Ss St C V)) as K.
  rewrite H in K. destruct (read n e r t) as [[y t']| |] eqn:H'; try contradiction. destruct K as [O _]. destruct y as [y|]; [|contradiction].
  destruct (O eq_refl) as (p & q & w & -> & -> & (d & B & -> & ->)). exists d, w, t'. split; [reflexivity|]. split; [exact B|]. exists n. exact H'.
Qed.
Print Assumptions C163_errors.

(** Without Body and BodyTail the functions are told places that lie equally far. *)
Definition no_body (r : reader) : Prop := match r with RBody _ _ | RBodyTail _ _ => False | RWrap _ f => looks_ahead f | _ => True end.
Lemma no_body_placed {L : GoLib} r : rallP no_body r -> rallP (placed false true false) r.
Proof.
  intros H. assert (H1 : rallP forward_reader r) by (eapply rallP_impl; [|exact H]; intros q; destruct q; cbn; auto).
  apply forward_placed in H1. pose proof (rallP_and _ _ r H1 H) as K. eapply rallP_impl; [|exact K].
  intros q [Q1 Q2]. destruct q; cbn [placed no_body] in *; auto; contradiction.
Qed.
Theorem C163_calls {L : GoLib} e r s t a a' b x s' : eallP no_body e -> rallP no_body r ->
  at_split s a b -> at_split t a' b -> h_cells (hp s) = h_cells (hp t) -> h_vals (hp s) = h_vals (hp t) ->
  reads e r s x s' -> exists y t' l, reads e r t y t' /\ h_events (hp s') = h_events (hp s) ++ l /\
  h_events (hp t') = h_events (hp t) ++ map (fun c => (fst c, mkTok (t_from (snd c) - slen a + slen a') (t_to (snd c) - slen a + slen a'))) l.
Proof.
  intros He Hr Ss St C V [n H].
  pose proof (sims_read false true (slen a' - slen a) (h_events (hp s)) (h_events (hp t)) false none none e (fun i q Q => no_body_placed q (He i q Q)) n r a a' b
    (or_introl eq_refl) (no_body_placed r Hr) s t (start_rel _ _ _ s t a a' b Ss St C V)) as K.
  rewrite H in K. destruct (read n e r t) as [[y t']| |] eqn:H'; try contradiction. destruct K as [_ (_ & _ & _ & _ & _ & (_ & _ & (l & l' & E1 & E2 & F) & _) & _)].
  exists y, t', l. split; [exists n; exact H'|]. split; [exact E1|]. rewrite E2. f_equal. clear - F.
  induction F as [|[i k] [i' k'] l l' [Q1 (z & [Z|[Z _]] & Q2)] F IH]; [reflexivity| |discriminate]. cbn in *. subst. f_equal. f_equal. f_equal; lia.
Qed.
Print Assumptions C163_calls.

(** Reading JSON, MXT or Lua in the middle of a text is reading the rest of it on its own. *)
Lemma plain_forward r : no_wrap r = true -> forward_reader r.
Proof. destruct r; cbn; auto. discriminate. Qed.
Lemma env_forward e : all_rules no_wrap e = true -> eallP forward_reader e.
Proof.
  intros H i r E. apply (eall_check no_wrap) in H. specialize (H i r E). apply rallP_rall in H. eapply rallP_impl; [|exact H]. apply plain_forward.
Qed.
Theorem C163_grammars {L : GoLib} e r a b : (e = json_env /\ r = json) \/ (e = mxt_env /\ r = mxt) \/ (e = lua_env /\ r = lua) -> slen (a ++ b) < 2 ^ 63 ->
  ((exists s', reads e r (mk (a ++ b) (slen a)) None s') <-> (exists s', reads e r (init_st b) None s')) /\
  (panics e r (mk (a ++ b) (slen a)) <-> panics e r (init_st b)) /\ (hangs e r (mk (a ++ b) (slen a)) <-> hangs e r (init_st b)) /\
  (forall s' t', reads e r (mk (a ++ b) (slen a)) None s' -> reads e r (init_st b) None t' -> pos (sc s') = slen a + pos (sc t')).
Proof.
  intros Hin B.
  assert (He : eallP forward_reader e).
  { destruct Hin as [ [-> _]|[ [-> _]|[-> _] ] ]; apply env_forward; vm_compute; reflexivity. }
  assert (Hr : rallP forward_reader r).
  { destruct Hin as [ [_ ->]|[ [_ ->]|[_ ->] ] ]; (split; exact I). }
  clear Hin.
  assert (S1 : at_split (mk (a ++ b) (slen a)) a b) by (apply mk_split; exact B).
  assert (S2 : at_split (init_st b) [] b).
  { split; [reflexivity|]. split; [reflexivity|]. rewrite slen_app in B. pose proof (slen_nonneg a). cbn [app]. lia. }
  destruct (C163_beginning_does_not_matter e r _ _ a [] b He Hr S1 S2 eq_refl eq_refl) as (K1 & K2 & K3).
  destruct (C163_beginning_does_not_matter e r _ _ [] a b He Hr S2 S1 eq_refl eq_refl) as (K4 & _ & _).
  split; [|split; [exact K2|split; [exact K3|] ] ].
  - split; intros [s' H].
    + destruct (K1 _ _ H) as (y & t' & R & Q & _). destruct Q as [Q _]. rewrite (Q eq_refl) in R. exists t'. exact R.
    + destruct (K4 _ _ H) as (y & t' & R & Q & _). destruct Q as [Q _]. rewrite (Q eq_refl) in R. exists t'. exact R.
  - intros s' t' H H'. destruct (K1 _ _ H) as (y & t1 & R & Q & P & _). destruct Q as [Q _]. rewrite (Q eq_refl) in R.
    destruct (reads_fun e r _ _ _ _ _ R H') as [_ ->]. change (slen []) with 0 in P. lia.
Qed.
Print Assumptions C163_grammars.

(** The message of a failing read differs only in the number, which lies equally far. *)
Definition names_placesb (r : reader) : bool :=
  match r with
  | RAny [] | RBool _ _ | RInt _ _ _ | RUint _ _ _ | RInvalid _ | RGrammar _ _ _ | RWrap _ _ => false
  | _ => true
  end.
Lemma names_check e : all_rules names_placesb e = true -> eallP names_places e.
Proof.
  intros H i r E. apply (eall_check names_placesb) in H. specialize (H i r E). apply rallP_rall in H. eapply rallP_impl; [|exact H].
  intros q Q. destruct q; cbn in *; auto; try discriminate. destruct rs; discriminate.
Qed.
Lemma grammar_message {L : GoLib} e w pfx i s x s' : reads e (RGrammar w pfx i) s (Some x) s' <-> exists y, reads e (RRule i) s (Some y) s' /\ x = EOther (pfx ++ err_text y).
Proof.
  split.
  - intros [n H]. destruct n as [|n]; [discriminate H|]. cbn [read] in H. destruct (r_reader (get_rule e i)) as [q|] eqn:Q; [|discriminate H].
    unfold bind in H. destruct (read n e q s) as [[y t]| |] eqn:R; try discriminate H. destruct y as [y|]; [|discriminate H]. injection H as <- <-.
    exists y. split; [|reflexivity]. exists (S n). cbn [read]. rewrite Q. exact R.
  - intros (y & [n H] & ->). destruct n as [|n]; [discriminate H|]. cbn [read] in H. destruct (r_reader (get_rule e i)) as [q|] eqn:Q; [|discriminate H].
    exists (S n). cbn [read]. rewrite Q. unfold bind. rewrite H. reflexivity.
Qed.
Theorem C163_messages {L : GoLib} e w pfx i s t a a' b x s' : eallP names_places e ->
  at_split s a b -> at_split t a' b -> h_cells (hp s) = h_cells (hp t) -> h_vals (hp s) = h_vals (hp t) ->
  reads e (RGrammar w pfx i) s (Some x) s' ->
  exists d what t', x = EOther (pfx ++ lit "not able to read " ++ what ++ lit " at " ++ itoa (slen a + d)) /\ 0 <= d <= slen b /\
  reads e (RGrammar w pfx i) t (Some (EOther (pfx ++ lit "not able to read " ++ what ++ lit " at " ++ itoa (slen a' + d)))) t'.
Proof.
  intros He Ss St C V H. apply grammar_message in H as (y & H & ->).
  destruct (C163_errors e (RRule i) s t a a' b y s' He (conj I I) Ss St C V H) as (d & v & t' & -> & B & H'). exists d, v, t'. split; [reflexivity|]. split; [exact B|].
  apply grammar_message. eexists. split; [exact H'|reflexivity].
Qed.
Print Assumptions C163_messages.
Theorem C163_grammars_name_places {L : GoLib} : eallP names_places json_env /\ eallP names_places mxt_env /\ eallP names_places lua_env.
Proof. split; [|split]; apply names_check; vm_compute; reflexivity. Qed.
Print Assumptions C163_grammars_name_places.
Example C163_message_case {L : GoLib} : exists x s' y t', reads json_env json (mk (lit "ab[") 2) (Some x) s' /\ reads json_env json (mk (lit "[") 0) (Some y) t' /\
  firstn 34 (err_text x) = lit "json parse error: not able to read" /\ skipn (length (err_text x) - 5) (err_text x) = lit " at 3" /\ skipn (length (err_text y) - 5) (err_text y) = lit " at 1".
Proof. do 4 eexists. split; [exists 40%nat; vm_compute; reflexivity|]. split; [exists 40%nat; vm_compute; reflexivity|]. split; [|split]; vm_compute; reflexivity. Qed.

(** The same number behind two different beginnings, with a function that is told where it stands. *)
Example C163_case {L : GoLib} : let r := RSeq [RMap 7 (RMany (RBetween 0x30 0x39)); RAny [RLit (lit ","); RAtEnd] ] in
  exists s' t', reads [] r (mk (lit "ab42,5") 2) None s' /\ reads [] r (mk (lit "42,5") 0) None t' /\ pos (sc s') = 5 /\ pos (sc t') = 3 /\
  h_events (hp s') = [(7%nat, mkTok 2 4)] /\ h_events (hp t') = [(7%nat, mkTok 0 2)] /\ rallP no_body r /\ rallP names_places r.
Proof.
  cbv zeta. eexists. eexists. split; [exists 30%nat; vm_compute; reflexivity|]. split; [exists 30%nat; vm_compute; reflexivity|].
  split; [reflexivity|]. split; [reflexivity|]. split; [reflexivity|]. split; [reflexivity|]. split; repeat split; discriminate.
Qed.
(** An error lies equally far; the error of an Any of invalid readers names place 0 wherever it stands. *)
Example C163_error_case {L : GoLib} : (exists s', reads [] (RLit (lit "x")) (mk (lit "ab42") 2) (Some (EReadError 2 (quote_str (lit "x")))) s') /\
  (exists t', reads [] (RLit (lit "x")) (mk (lit "42") 0) (Some (EReadError 0 (quote_str (lit "x")))) t').
Proof. split; eexists; exists 5%nat; reflexivity. Qed.
Example C163_nameless_case {L : GoLib} : exists s', reads [] (RAny [RInvalid (lit "x")]) (mk (lit "ab42") 2) (Some (EReadError 0 [])) s'.
Proof. eexists. exists 5%nat. reflexivity. Qed.
(** A function below Body is told a place of the inner text, which does not move. *)
Example C163_body_case {L : GoLib} : let r := RBody (RMap 7 (RLit (lit "42"))) (RLit (lit ";")) in exists s', reads [] r (mk (lit "ab42;") 2) None s' /\ h_events (hp s') = [(7%nat, mkTok 0 2)].
Proof. eexists. split; [exists 9%nat; vm_compute; reflexivity|reflexivity]. Qed.

(* ------------------------------------------------------------------ C166 *)

(** A segment and an entry that lie [d] further. *)
Definition segment_by (d : Z) (g : segment) : segment := mkSeg (s_info g) (mkTok (t_from (s_tok g) + d) (t_to (s_tok g) + d)).
Definition entry_by (d : Z) (x y : entry) : Prop :=
  e_info y = e_info x /\ e_level y = e_level x /\ e_enter y = e_enter x + d /\
  ((e_exit x = 0 /\ e_exit y = 0 /\ e_err x = None /\ e_err y = None) \/ (e_exit y = e_exit x + d /\ (e_err y = None <-> e_err x = None))).
(** C166.  What is added to Baskets and Logs lies equally far, if the old segments end before the position and the Logs are empty. *)
Theorem C166_baskets_and_logs {L : GoLib} e r s t a a' b x s' : eallP no_body e -> rallP no_body r ->
  at_split s a b -> at_split t a' b -> h_cells (hp s) = h_cells (hp t) -> h_vals (hp s) = h_vals (hp t) -> trk (sc s) = trk (sc t) ->
  (forall i, Forall (fun g => t_to (s_tok g) <= slen a) (get_basket i (hp s)) /\ Forall (fun g => t_to (s_tok g) <= slen a') (get_basket i (hp t))) ->
  (forall i, get_log i (hp s) = log0 /\ get_log i (hp t) = log0) ->
  reads e r s x s' -> exists y t', reads e r t y t' /\
  (forall i, exists l, get_basket i (hp s') = get_basket i (hp s) ++ l /\
     get_basket i (hp t') = get_basket i (hp t) ++ map (segment_by (slen a' - slen a)) l) /\
  (forall i, Forall2 (entry_by (slen a' - slen a)) (log_entries (get_log i (hp s'))) (log_entries (get_log i (hp t')))).
Proof.
  intros He Hr Ss St C V Tk Ob Ol [n H].
  assert (Hp : forall q, rallP no_body q -> rallP (placed false true true) q).
  { intros q Q. apply no_body_placed in Q as Q'. pose proof (rallP_and _ _ q Q' Q) as K. eapply rallP_impl; [|exact K].
    intros z [Z1 Z2]. destruct z; cbn [placed no_body] in *; auto; contradiction. }
  pose proof (sims_read false true (slen a' - slen a) (h_events (hp s)) (h_events (hp t)) true (fun i => get_basket i (hp s)) (fun i => get_basket i (hp t)) e
    (fun i q Q => Hp q (He i q Q)) n r a a' b (or_introl eq_refl) (Hp r Hr) s t) as K.
  rewrite H in K. destruct (start_rel false true (slen a' - slen a) s t a a' b Ss St C V) as (R1 & R2 & R3 & R4 & R5 & (_ & _ & R6 & _) & _).
  assert (T : rel false true (slen a' - slen a) (h_events (hp s)) (h_events (hp t)) true (fun i => get_basket i (hp s)) (fun i => get_basket i (hp t)) a a' b s t).
  { repeat (split; [assumption|]). split; [|intros _; split; [reflexivity|]; split; [reflexivity|]; split; [exact Tk|exact Ob] ].
    split; [exact C|]. split; [exact V|]. split; [exact R6|]. split.
    - intros _ i. exists [], []. rewrite !app_nil_r. auto.
    - intros _ i. destruct (Ol i) as [-> ->]. repeat (split; [reflexivity|]). constructor. }
  specialize (K T). destruct (read n e r t) as [[y t']| |] eqn:H'; try contradiction. destruct K as [_ (_ & _ & _ & _ & _ & (_ & _ & _ & Kb & Kl) & _)].
  exists y, t'. split; [exists n; exact H'|]. split.
  - intros i. destruct (Kb eq_refl i) as (l & l' & E1 & E2 & F). exists l. split; [exact E1|]. rewrite E2. f_equal. clear - F.
    induction F as [|g g' l l' G F IH]; [reflexivity|]. cbn [map]. rewrite <- IH. f_equal. exact G.
  - intros i. pose proof (entries_alike _ _ _ _ (Kl eq_refl i)) as F. eapply f2_impl; [|exact F]. intros y1 y2 (I1 & I2 & I3 & I4).
    split; [auto|]. split; [auto|]. split; [auto|]. destruct I4 as [I4|[I4 I5] ]; [left; exact I4|right]. split; [exact I4|].
    unfold alike_err in I5. destruct (e_err y1), (e_err y2); try contradiction; split; congruence.
Qed.
Print Assumptions C166_baskets_and_logs.
Example C166_case {L : GoLib} : let r := RMonitor (lit "m") 0 (RSeq [RPick (lit "n") 0 (RMany (RBetween 0x30 0x39)); RLit (lit ",")]) in
  let s0 := mkSt (mkSc (lit "ab42,5") 2 (Some 0%nat)) heap0 in let t0 := mkSt (mkSc (lit "42,5") 0 (Some 0%nat)) heap0 in
  (exists s', reads [] r s0 None s' /\ get_basket 0 (hp s') = [mkSeg (lit "n") (mkTok 2 4)] /\ log_entries (get_log 0 (hp s')) = [mkEntry 2 (lit "m") 1 5 None]) /\
  (exists t', reads [] r t0 None t' /\ get_basket 0 (hp t') = [mkSeg (lit "n") (mkTok 0 2)] /\ log_entries (get_log 0 (hp t')) = [mkEntry 0 (lit "m") 1 3 None]) /\ rallP no_body r.
Proof.
  split; [|split; [|repeat split] ]; (eexists; split; [exists 30%nat; vm_compute; reflexivity|split; reflexivity]).
Qed.
(** Old segments behind the position are dropped from the Basket when the scanner is moved, so they do matter. *)
Example C166_condition {L : GoLib} : exists s', reads [] (RLit (lit "4")) (mkSt (mkSc (lit "ab42") 2 (Some 0%nat)) (mkHeap [ [mkSeg [] (mkTok 0 4)] ] [] [] [] [])) None s' /\ get_basket 0 (hp s') = [].
Proof. eexists. split; [exists 5%nat; vm_compute; reflexivity|reflexivity]. Qed.

(* ------------------------------------------------------------------ C164 *)

(** Programs made of forward Scanner methods. *)
Inductive forward {L : GoLib} : M bool -> Prop :=
| f_if str : forward (if_str str)
| f_if_any strs : forward (if_any strs)
| f_to str : forward (to_str str)
| f_if_fold str : forward (if_fold str)
| f_to_fold str : forward (to_fold str)
| f_if_rune r : forward (if_rune r)
| f_to_rune r : forward (to_rune r)
| f_while_rune r : forward (while_rune r)
| f_if_any_rune str : forward (if_any_rune str)
| f_to_any_rune str : forward (to_any_rune str)
| f_while_any_rune str : forward (while_any_rune str)
| f_if_between mn mx : forward (if_between mn mx)
| f_to_between mn mx : forward (to_between mn mx)
| f_while_between mn mx : forward (while_between mn mx)
| f_if_match f : forward (if_match f)
| f_to_match f : forward (to_match f)
| f_while_match f : forward (while_match f)
| f_move n : 0 <= n < 2 ^ 63 -> forward (move n)
| f_move_runes n : 0 <= n -> forward (move_runes n)
| f_to_end : forward to_end
| f_at_end : forward at_end
| f_ret ok : forward (ret ok)
| f_cond m m1 m2 : forward m -> forward m1 -> forward m2 -> forward (let* ok := m in if ok then m1 else m2)
| f_scope m : forward m -> forward (scope m)
| f_while n m : forward m -> forward (while_f n m)
| f_use n e r : eallP forward_reader e -> rallP forward_reader r -> forward (let* x := use (read n e r) in ret (match x with None => true | Some _ => false end)).

(** [m] gives the same in both places and goes equally far. *)
Definition alike {A} (a a' : bytes) (m : M A) (s t : st) : Prop :=
  match m s with
  | Ok (x, s') => exists t', m t = Ok (x, t') /\ pos (sc s') - slen a = pos (sc t') - slen a'
  | Panic => m t = Panic
  | Fuel => m t = Fuel
  end.
Lemma forward_sims {L : GoLib} m : forward m -> forall a a' b E E', sims false false (slen a' - slen a) E E' false none none a a' b eq m m.
Proof.
  induction 1; intros a a' b E E'.
  - apply sims_if_str.
  - apply sims_if_any.
  - apply sims_to_str.
  - apply sims_if_fold.
  - apply sims_to_fold.
  - apply sims_if_rune.
  - apply sims_to_rune.
  - apply sims_while_rune.
  - apply sims_if_any_rune.
  - apply sims_to_any_rune.
  - apply sims_while_any_rune.
  - apply sims_if_between.
  - apply sims_to_between.
  - apply sims_while_between.
  - apply sims_if_match.
  - apply sims_to_match.
  - apply sims_while_match.
  - apply sims_move; assumption.
  - apply sims_move_runes; assumption.
  - apply sims_end.
  - apply sims_at_end.
  - apply sims_ret; reflexivity.
  - apply sims_eq; [apply IHforward1|]. intros []; [apply IHforward2|apply IHforward3].
  - apply sims_scope, IHforward.
  - apply sims_while, IHforward.
  - eapply sims_bind; [apply sims_use, sims_read; [|left; reflexivity|]|].
    + intros i q Q. apply forward_placed, (H i q Q).
    + apply forward_placed, H0.
    + intros [u|] [v|] O; try contradiction; apply sims_ret; reflexivity.
Qed.
Lemma sims_alike {L : GoLib} {A} (m : M A) s t a a' b : at_split s a b -> at_split t a' b -> h_cells (hp s) = h_cells (hp t) -> h_vals (hp s) = h_vals (hp t) ->
  sims false false (slen a' - slen a) (h_events (hp s)) (h_events (hp t)) false none none a a' b eq m m -> alike a a' m s t.
Proof.
  intros Ss St C V K. specialize (K s t (start_rel _ _ _ s t a a' b Ss St C V)). unfold alike.
  destruct (m s) as [[x s']| |], (m t) as [[y t']| |]; try contradiction; try reflexivity. destruct K as [<- (_ & _ & _ & _ & (d & B & P & Q) & _)].
  exists t'. split; [reflexivity|lia].
Qed.
Theorem C164_forward_methods {L : GoLib} m s t a a' b : forward m -> at_split s a b -> at_split t a' b ->
  h_cells (hp s) = h_cells (hp t) -> h_vals (hp s) = h_vals (hp t) -> alike a a' m s t.
Proof. intros F Ss St C V. apply (sims_alike m s t a a' b Ss St C V). apply forward_sims, F. Qed.
Print Assumptions C164_forward_methods.
(** The texts that Capture and Trace return and the string of ScanString are the same. *)
Theorem C164_texts {L : GoLib} m n s t a a' b : forward m -> at_split s a b -> at_split t a' b ->
  h_cells (hp s) = h_cells (hp t) -> h_vals (hp s) = h_vals (hp t) ->
  alike a a' (capture m) s t /\ alike a a' (trace m) s t /\ alike a a' (scan_string n) s t.
Proof.
  intros F Ss St C V. repeat split; apply (sims_alike _ s t a a' b Ss St C V).
  - apply sims_capture, forward_sims, F.
  - apply sims_trace, forward_sims, F.
  - apply sims_scan_string.
Qed.
Print Assumptions C164_texts.
(** ReadRune, ReadBool, ReadInt and ReadUint give the same values, and an error on both sides or none. *)
Theorem C164_values {L : GoLib} s t a a' b format base bits : at_split s a b -> at_split t a' b ->
  h_cells (hp s) = h_cells (hp t) -> h_vals (hp s) = h_vals (hp t) ->
  let same {A} (m : M (A * option err)) := alike a a' (let* x := m in ret (fst x, match snd x with None => true | Some _ => false end)) s t in
  same read_rune /\ same (read_bool format) /\ same (read_int base bits) /\ same (read_uint base bits).
Proof.
  intros Ss St C V.
  assert (K : forall A (m : M (A * option err)), sims false false (slen a' - slen a) (h_events (hp s)) (h_events (hp t)) false none none a a' b (verrs false a a' b) m m ->
    alike a a' (let* x := m in ret (fst x, match snd x with None => true | Some _ => false end)) s t).
  { intros A m H. apply (sims_alike _ s t a a' b Ss St C V). eapply sims_bind; [exact H|]. intros [u1 u2] [v1 v2] [Q O]. cbn [fst snd] in *. subst.
    apply sims_ret. destruct u2, v2; try contradiction; reflexivity. }
  cbv zeta. repeat split; apply K.
  - apply sims_read_rune.
  - apply sims_read_bool; discriminate.
  - apply sims_read_int; discriminate.
  - apply sims_read_uint; discriminate.
Qed.
Print Assumptions C164_values.
Example C164_case {L : GoLib} : let m := scope (let* ok := while_rune 0x61 in if ok then if_str (lit "b") else ret false) in
  m (mk (lit "xxaab") 2) = Ok (true, mk (lit "xxaab") 5) /\ m (mk (lit "aab") 0) = Ok (true, mk (lit "aab") 3) /\ forward m.
Proof. split; [vm_compute; reflexivity|]. split; [vm_compute; reflexivity|]. repeat constructor. Qed.
(** ToStart, a backward method, does depend on the beginning. *)
Example C164_condition : ~ alike (lit "x") [] to_start (mk (lit "xa") 1) (mk (lit "a") 0).
Proof. intros (t' & H & P). injection H as <-. discriminate P. Qed.

(* ------------------------------------------------------------------ C165 *)

(** Programs made of backward Scanner methods. *)
Inductive backward {L : GoLib} : M bool -> Prop :=
| r_if str : backward (rev_if str)
| r_if_any strs : backward (rev_if_any strs)
| r_to str : backward (rev_to str)
| r_if_fold str : backward (rev_if_fold str)
| r_to_fold str : backward (rev_to_fold str)
| r_if_rune r : backward (rev_if_rune r)
| r_to_rune r : backward (rev_to_rune r)
| r_while_rune r : backward (rev_while_rune r)
| r_if_any_rune str : backward (rev_if_any_rune str)
| r_to_any_rune str : backward (rev_to_any_rune str)
| r_while_any_rune str : backward (rev_while_any_rune str)
| r_if_between mn mx : backward (rev_if_between mn mx)
| r_to_between mn mx : backward (rev_to_between mn mx)
| r_while_between mn mx : backward (rev_while_between mn mx)
| r_if_match f : backward (rev_if_match f)
| r_to_match f : backward (rev_to_match f)
| r_while_match f : backward (rev_while_match f)
| r_move n : - 2 ^ 63 <= n <= 0 -> backward (move n)
| r_move_runes n : n <= 0 -> backward (move_runes n)
| r_to_start : backward to_start
| r_at_start : backward at_start
| r_ret ok : backward (ret ok)
| r_cond m m1 m2 : backward m -> backward m1 -> backward m2 -> backward (let* ok := m in if ok then m1 else m2)
| r_scope m : backward m -> backward (scope m)
| r_while n m : backward m -> backward (while_f n m).
(** [m] gives the same and ends at the same position. *)
Definition agrees {A} (m : M A) (s t : st) : Prop :=
  match m s with
  | Ok (x, s') => exists t', m t = Ok (x, t') /\ pos (sc s') = pos (sc t')
  | Panic => m t = Panic
  | Fuel => m t = Fuel
  end.
Lemma backward_same {L : GoLib} m : backward m -> forall a b b', same a b b' m.
Proof.
  induction 1; intros a b b'.
  - apply same_if.
  - apply same_if_any.
  - apply same_to.
  - apply same_if_fold.
  - apply same_to_fold.
  - apply same_if_rune.
  - apply same_to_rune.
  - apply same_while.
  - apply same_if_any_rune.
  - apply same_to_any_rune.
  - apply same_while.
  - apply same_if_between.
  - apply same_to_between.
  - apply same_while.
  - apply same_if_match.
  - apply same_to_match.
  - apply same_while.
  - apply same_move; assumption.
  - apply same_move_runes; assumption.
  - apply same_start.
  - apply same_at_start.
  - apply same_ret.
  - apply same_bind; [apply IHbackward1|]. intros []; [apply IHbackward2|apply IHbackward3].
  - apply same_scope, IHbackward.
  - apply same_while_f, IHbackward.
Qed.
Lemma same_agrees {A} (m : M A) s t a b b' : at_split s a b -> at_split t a b' -> same a b b' m -> agrees m s t.
Proof.
  intros (F & P & B) (F' & P' & B') K. specialize (K s t). unfold agrees. pose proof (slen_nonneg a).
  assert (T : backs a b b' s t) by (repeat (split; [assumption|]); lia). specialize (K T).
  destruct (m s) as [[x s']| |], (m t) as [[y t']| |]; try contradiction; try reflexivity. destruct K as [<- (_ & _ & _ & _ & Q & _)].
  exists t'. auto.
Qed.
Theorem C165_backward_methods {L : GoLib} m s t a b b' : backward m -> at_split s a b -> at_split t a b' -> agrees m s t.
Proof. intros F Ss St. apply (same_agrees m s t a b b' Ss St). apply backward_same, F. Qed.
Print Assumptions C165_backward_methods.
(** Line and column are those of the text before the position. *)
Theorem C165_line_col {L : GoLib} tab s t a b b' : at_split s a b -> at_split t a b' -> agrees (line_col tab) s t.
Proof. intros Ss St. apply (same_agrees _ s t a b b' Ss St). apply same_line_col. Qed.
Print Assumptions C165_line_col.
Example C165_case {L : GoLib} : let m := scope (let* ok := rev_while_rune 0x61 in if ok then rev_if (lit "b") else ret false) in
  m (mk (lit "xbaac") 4) = Ok (true, mk (lit "xbaac") 1) /\ m (mk (lit "xbaa") 4) = Ok (true, mk (lit "xbaa") 1) /\ backward m.
Proof. split; [vm_compute; reflexivity|]. split; [vm_compute; reflexivity|]. repeat constructor. Qed.
(** AtEnd does depend on the rest. *)
Example C165_condition : ~ agrees at_end (mk (lit "xa") 1) (mk (lit "x") 1).
Proof. intros (t' & H & _). discriminate H. Qed.
