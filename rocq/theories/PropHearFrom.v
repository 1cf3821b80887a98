(** PropHearFrom.v - C162: functions mapped to rules are only told texts of those rules, whether the read succeeds or not. *)
From Verif Require Import ReaderScan ReaderTrans ReaderSteps ExKit Json Mxt Lua JsonFacts PegFacts PegBytes PropJson PropCfg PropLuaSyntax PropTrack LuaSyntax UseFacts PropMxtText HearFrom.
From Coq Require Import Lia.
Import SpecLuaSyntax.

(** What functions were told: [new] was called after what was called before, and each call is of the function for the
    name of a rule of [ids], with the place of a part of the text [t] that is a [word] of that rule. *)
Definition only_told (e : env) (who : bytes -> nat) (ids : list nat) (word : nat -> bytes -> Prop) (t : bytes) (before after : list (nat * token)) : Prop :=
  exists new, after = before ++ new /\
  Forall (fun x => exists j u v z, In j ids /\ fst x = who (r_name (get_rule e j)) /\ t = u ++ v ++ z /\ snd x = mkTok (slen u) (slen (u ++ v)) /\ word j v) new.

(** C162.  Functions mapped to any rules of a grammar that are not used below Body and BodyTail (the rules of [R] are).  *)
Theorem C162_told_words {L : GoLib} e who ids R r s a b x s' : NoDup ids -> (forall i, In i ids -> (i < length e)%nat /\ R i = false) ->
  complete e -> restores e -> eall covered e -> eall steadyb e -> eall (unheardb R) e ->
  (forall i q, R i = true -> r_reader (get_rule e i) = Some q -> rall (silentb R) q = true) ->
  rall covered r = true -> rall steadyb r = true -> rall (unheardb R) r = true -> at_split s a b ->
  reads (map_rules who ids e) r s x s' ->
  only_told e who ids (fun j => language e (RRule j)) (a ++ b) (h_events (hp s)) (h_events (hp s')).
Proof.
  intros Nd Hi Co Re Ce Se Ue Rb Hc Hs Hu Sp Rd.
  destruct (told_from e who ids R Nd (fun i H => proj1 (Hi i H)) Co Re Ce (fun i H => proj2 (Hi i H)) (fun i q H E => silent_check R q (Rb i q H E))
    (fun _ _ => True) steady (fun i q E => steady_check q (Se i q E)) (fun i q E => unheard_check R q (Ue i q E)) (fun _ _ _ => Logic.I) (fun _ _ _ _ _ _ _ _ _ => Logic.I)
    r s a b x s' Hc (steady_check r Hs) (unheard_check R r Hu) Sp Logic.I Rd) as (new & Ev & F).
  exists new. split; [exact Ev|]. revert F. apply Forall_impl. intros [id t] (j & q & u & v & z & c & c' & A1 & A2 & A3 & A4 & A5 & _ & D).
  exists j, u, v, z. split; [auto|]. split; [auto|]. split; [auto|]. split; [auto|].
  intros I Cl. apply (Cl j q v A3). apply (glang_lang (fun _ _ => True)).
  refine (eats_lang (fun _ _ => True) I e Re (fun _ _ => True) steady _ _ _ _ _ _ _ (IR q) _ _ true _ _ D eq_refl _ _ _ v eq_refl); auto.
  - intros i y E. apply steady_check. exact (Se i y E).
  - intros i y c0 y0 d z0 u0 E _ _ _ G. apply (Cl i y); auto. apply (glang_lang (fun _ _ => True)). exact G.
  - exact Logic.I.
  - apply steady_check. exact (Se j q A3).
  - split; exact Logic.I.
Qed.
Print Assumptions C162_told_words.

(** Functions mapped to rules of Lua() are told phrases of those rules. *)
Theorem C162_lua {L : GoLib} who ids r s a b x s' : NoDup ids -> (forall i, In i ids -> (i < 44)%nat) ->
  r = lua \/ (exists i, r = RRule i /\ (i < 44)%nat) -> at_split s a b -> wf_text b -> (forall j, wf_text (get [] (h_cells (hp s)) j)) ->
  reads (map_rules who ids lua_env) r s x s' ->
  only_told lua_env who ids lua_text (a ++ b) (h_events (hp s)) (h_events (hp s')).
Proof.
  intros Nd Hi Hr Sp W C Rd. destruct (lua_may_pick (L := L)) as (Co & _ & Re & _).
  assert (Ar : rallP apt r).
  { destruct Hr as [->|(i & -> & H)]; [|apply apt_rule; auto]. split; [split; [exact Logic.I|vm_compute; reflexivity]|exact Logic.I]. }
  assert (Hu : eallP (unheard (chosen [])) lua_env).
  { intros i q E. apply unheard_check. revert i q E. change (eall (unheardb (chosen [])) lua_env). apply eall_check. vm_compute. reflexivity. }
  assert (Rb : forall i q, chosen [] i = true -> r_reader (get_rule lua_env i) = Some q -> rallP (silent (chosen [])) q) by (intros i q H; discriminate H).
  assert (Ge : eallP apt lua_env) by (intros i y E; apply apt_all; [exact (lua_steady i y E)|exact (lua_good i y E)]).
  assert (Ws : forall d y, texts d y -> texts d (snd (step y))) by (intros d y [H1 H2]; split; auto; apply wf_step; auto).
  assert (Hc : rall covered r = true) by (destruct Hr as [->|(i & -> & _)]; reflexivity).
  assert (Hur : rallP (unheard (chosen [])) r) by (destruct Hr as [->|(i & -> & _)]; repeat split).
  assert (Li : forall i, In i ids -> (i < length lua_env)%nat) by (intros i I; apply Hi in I; exact I).
  pose proof (told_from lua_env who ids (chosen []) Nd Li Co Re lua_covered (fun _ _ => eq_refl)) as T.
  specialize (T Rb texts apt Ge Hu Ws).
  specialize (T (fun r0 c0 b0 ok c' b' => texts_after r0 c0 b0 ok c' b') r s a b x s' Hc Ar Hur Sp).
  destruct (T (conj W C) Rd) as (new & Ev & F).
  exists new. split; [exact Ev|]. revert F. apply Forall_impl. intros [id t] (j & q & u & v & z & c & c' & A1 & A2 & A3 & A4 & A5 & Wt & D).
  exists j, u, v, z. split; [auto|]. split; [auto|]. split; [auto|]. split; [auto|].
  exact (lua_eats (RRule j) _ _ _ _ v (apt_rule j (Hi j A1)) Wt (e_rule _ _ _ _ _ _ _ _ A3 D) eq_refl).
Qed.
Print Assumptions C162_lua.

(** The texts of the rules of JSON() that a user would map. *)
Inductive json_word : nat -> bytes -> Prop :=
| jw_key w : j_string w -> json_word jKey w
| jw_string w : j_string w -> json_word jString w
| jw_number w : j_number w -> json_word jNumber w
| jw_true : json_word jBool (lit "true")
| jw_false : json_word jBool (lit "false")
| jw_null : json_word jNull (lit "null")
| jw_object w : json_text Value (lit "{" ++ w) -> json_word jObject (lit "{" ++ w)
| jw_array w : json_text Value (lit "[" ++ w) -> json_word jArray (lit "[" ++ w).

Section JsonWords.
Context {L : GoLib}.
Lemma out_ate i (c c' : cells) b b' ok (b2 : bytes) : out json_env i b ok b2 -> eats json_env i c b true c' b' -> ok = true /\ b2 = b'.
Proof. intros O D. pose proof (out_eats _ _ _ _ _ _ _ _ _ O D) as X. intuition congruence. Qed.
Lemma run_ate i (J K : bytes -> Prop) (c c' : cells) w b' : run i J K (w ++ b') -> (forall b, K b -> stuck json_env i b) -> eats json_env i c (w ++ b') true c' b' -> J w.
Proof.
  intros [(v & b2 & E & Jv & O)|[O|C]] St D.
  - destruct (out_ate _ _ _ _ _ _ _ O D) as [_ ->]. apply app_inv_tail in E. congruence.
  - destruct (out_ate _ _ _ _ _ _ _ O D). discriminate.
  - exfalso. exact (St _ C _ _ _ _ D).
Qed.
Lemma value_ate c c' w b' : eats json_env (IR (RRule jValue)) c (w ++ b') true c' b' -> json_text Value w.
Proof. intros D. eapply (run_ate _ _ _ _ _ _ _ (value_runs (w ++ b'))); [|exact D]. intros b C. exact (cut_stuck Value b C). Qed.
Lemma string_ate k c c' w b' : r_reader (get_rule json_env k) = Some rd_string -> eats json_env (IR (RRule k)) c (w ++ b') true c' b' -> j_string w.
Proof.
  intros Q D. eapply (run_ate (IR (RRule k)) j_string cut_string c c' w b'); [|intros b C; eapply k_rule; [exact Q|apply k_string; exact C]|exact D].
  eapply run_rule; [exact Q|apply string_runs].
Qed.
Lemma lit_ate x c c' w b' : eats json_env (IR (RLit x)) c (w ++ b') true c' b' -> w = x.
Proof. intros D. apply (run_ate (IR (RLit x)) (fun w => w = x) (fun _ => False) c c' w b'); [apply run_lit; reflexivity|intros b []|exact D]. Qed.
Lemma first_word n w b' : 0 <= n < 128 -> first (is n) (w ++ b') = true -> w <> [] -> exists t, w = zb n :: t.
Proof. intros Hn F H. destruct w as [|x t]; [congruence|]. exists t. cbn in F. apply is_eq in F. congruence. Qed.
Lemma value_some w : json_text Value w -> w <> [].
Proof.
  intros J ->. inversion J as [| | | |w H|w H| | | | | | | | |]; subst; try discriminate.
  - apply string_first in H as [t Q]. discriminate.
  - apply number_first in H as (x & t & Q & _). discriminate.
Qed.
Lemma word_ate j c c' w b' : In j stack_ids -> eats json_env (IR (RRule j)) c (w ++ b') true c' b' -> json_word j w.
Proof.
  intros I D. unfold stack_ids in I.
  assert (Obj : j = jObject -> json_word j w).
  { intros ->. destruct (first (is 0x7B) (w ++ b')) eqn:F; [|destruct (out_ate _ _ _ _ _ _ _ (o_object_no _ F) D); discriminate].
    assert (J : json_text Value w).
    { apply (value_ate c c' w b'). eapply e_rule; [apply env_value|]. exact (e_any json_env _ c (w ++ b') true c' b' (i_any_hit json_env _ _ _ _ _ _ D)). }
    pose proof (value_some w J) as Ne.
    apply (first_word 0x7B) in F as [t ->]; [|lia|auto]. apply jw_object. exact J. }
  assert (Arr : j = jArray -> json_word j w).
  { intros ->. destruct (first (is 0x5B) (w ++ b')) eqn:F; [|destruct (out_ate _ _ _ _ _ _ _ (o_array_no _ F) D); discriminate].
    assert (O : first (is 0x7B) (w ++ b') = false) by (apply first_is in F as [t ->]; reflexivity).
    assert (J : json_text Value w).
    { apply (value_ate c c' w b'). eapply e_rule; [apply env_value|]. exact (e_any json_env _ c (w ++ b') true c' b' (i_any_next json_env _ _ _ _ _ _ _ _ _ (o_object_no _ O c) (i_any_hit json_env _ _ _ _ _ _ D))). }
    pose proof (value_some w J) as Ne.
    apply (first_word 0x5B) in F as [t ->]; [|lia|auto]. apply jw_array. exact J. }
  assert (Num : j = jNumber -> json_word j w).
  { intros ->. apply jw_number. destruct (number_run (w ++ b')) as [(n & b2 & E & J & O)|O]; destruct (out_ate _ _ _ _ _ _ _ O D) as [X Y]; [|discriminate]. subst b2. apply app_inv_tail in E. congruence. }
  assert (Bool : j = jBool -> json_word j w).
  { intros ->. apply (run_ate (IR (RRule jBool)) (json_word jBool) (fun _ => False) c c' w b'); [|intros b []|exact D].
    eapply run_rule; [apply env_bool|]. apply run_any. repeat apply run_any_cons; [apply run_lit, jw_true|apply run_lit, jw_false|apply run_any_nil]. }
  assert (Null : j = jNull -> json_word j w).
  { intros ->. apply (run_ate (IR (RRule jNull)) (json_word jNull) (fun _ => False) c c' w b'); [|intros b []|exact D].
    eapply run_rule; [apply env_null|]. apply run_lit, jw_null. }
  cbn in I. repeat destruct I as [<-|I]; try contradiction; auto.
  - apply jw_key. apply (string_ate jKey c c' w b' env_key D).
  - apply jw_string. apply (string_ate jString c c' w b' env_string D).
Qed.
End JsonWords.
(** Functions mapped to Key, Object, Array, String, Number, Bool and Null of JSON(): what they are told are keys,
    objects, ... of JSON, also when the text turns out to be no JSON. *)
Theorem C162_json {L : GoLib} who ids r s a b x s' : NoDup ids -> incl ids stack_ids -> r = json \/ (exists i, r = RRule i) ->
  at_split s a b -> reads (map_rules who ids json_env) r s x s' ->
  only_told json_env who ids json_word (a ++ b) (h_events (hp s)) (h_events (hp s')).
Proof.
  intros Nd Hi Hr Sp Rd. destruct (stack_may_pick (L := L)) as (Co & _ & Re & _ & B & _).
  assert (Hu : eallP (unheard (chosen [])) json_env).
  { intros i q E. apply unheard_check. revert i q E. change (eall (unheardb (chosen [])) json_env). apply eall_check. vm_compute. reflexivity. }
  assert (Rb : forall i q, chosen [] i = true -> r_reader (get_rule json_env i) = Some q -> rallP (silent (chosen [])) q) by (intros i q H; discriminate H).
  assert (Ge : eallP (fun _ => True) json_env) by (intros i q E; pose proof (json_covered i q E) as H; apply rallP_rall in H; revert H; apply rallP_impl; auto).
  assert (Hc : rall covered r = true) by (destruct Hr as [->|(i & ->)]; reflexivity).
  assert (Hg : rallP (fun _ => True) r) by (destruct Hr as [->|(i & ->)]; repeat split).
  assert (Hur : rallP (unheard (chosen [])) r) by (destruct Hr as [->|(i & ->)]; repeat split).
  destruct (told_from json_env who ids (chosen []) Nd (fun i H => proj1 (B i (Hi i H))) Co Re json_covered (fun _ _ => eq_refl) Rb (fun _ _ => True) (fun _ => True) Ge Hu (fun _ _ _ => Logic.I)
    (fun _ _ _ _ _ _ _ _ _ => Logic.I) r s a b x s' Hc Hg Hur Sp Logic.I Rd) as (new & Ev & F).
  exists new. split; [exact Ev|]. revert F. apply Forall_impl. intros [id t] (j & q & u & v & z & c & c' & A1 & A2 & A3 & A4 & A5 & _ & D).
  exists j, u, v, z. split; [auto|]. split; [auto|]. split; [auto|]. split; [auto|].
  apply (word_ate j c c' v z (Hi j A1)). exact (e_rule _ _ _ _ _ _ _ _ A3 D).
Qed.
Print Assumptions C162_json.
(** A text that breaks off: the function for Object is not called, those for the parts read before are. *)
Example C162_broken {L : GoLib} : exists x s', reads (map_rules (fun n => length n) stack_ids json_env) json (init_st (lit "[1,[true],{} 2]")) (Some x) s' /\
  h_events (hp s') = [(6%nat, mkTok 1 2); (4%nat, mkTok 4 8); (5%nat, mkTok 3 9); (6%nat, mkTok 10 12)].
Proof. eexists. eexists. split; [exists 60%nat; vm_compute; reflexivity|reflexivity]. Qed.
(** Lua: a name is told that is then not used as a name: the call is for what was tried. *)
Example C162_lua_case {L : GoLib} : exists x s', reads (map_rules (fun _ => 7%nat) [lName] lua_env) lua (init_st (lit "a=b")) x s' /\
  h_events (hp s') <> [].
Proof. eexists. eexists. split; [exists 400%nat; vm_compute; reflexivity|discriminate]. Qed.
(** Of MXT(), for all rules but WordChar, which is read below BodyTail: its tokens are places in a part of the text. *)
Theorem C162_mxt {L : GoLib} who ids r s a b x s' : NoDup ids -> incl ids mxt_ids -> r = mxt \/ (exists i, r = RRule i) -> at_split s a b ->
  reads (map_rules who ids mxt_env) r s x s' ->
  only_told mxt_env who ids (fun j => language mxt_env (RRule j)) (a ++ b) (h_events (hp s)) (h_events (hp s')).
Proof.
  intros Nd Hi Hr Sp Rd. destruct (mxt_may_pick (L := L)) as (Co & _ & Re & _ & B & _).
  apply (C162_told_words mxt_env who ids (chosen [mWordChar]) r s a b x s' Nd (fun i H => B i (Hi i H)) Co Re); auto.
  - apply eall_check. vm_compute. reflexivity.
  - apply eall_check. vm_compute. reflexivity.
  - apply eall_check. vm_compute. reflexivity.
  - intros i q H E. apply existsb_exists in H as (j & J & X). apply Nat.eqb_eq in X. subst j. destruct J as [<-|[]]. vm_compute in E. injection E as <-. reflexivity.
  - destruct Hr as [->|(i & ->)]; reflexivity.
  - destruct Hr as [->|(i & ->)]; reflexivity.
  - destruct Hr as [->|(i & ->)]; reflexivity.
Qed.
Print Assumptions C162_mxt.
(** Below BodyTail a function is told a place in the part of the text: here 0 to 1, where the text has an a. *)
Example C162_condition {L : GoLib} : let e := [mkRule (lit "B") (Some (RLit (lit "b")))] in
  exists s', reads (map_rules (fun _ => 7%nat) [0%nat] e) (RSeq [RLit (lit "aa"); RBodyTail (RRule 0) (RLit (lit ";"))]) (init_st (lit "aab;")) None s' /\
    h_events (hp s') = [(7%nat, mkTok 0 1)].
Proof. eexists. split; [exists 60%nat; vm_compute; reflexivity|reflexivity]. Qed.
