(** PropJsonHear.v - functions mapped to the rules of a grammar: reading stays the same (C159); the calls for JSON() (C160). *)
From Verif Require Import ReaderScan ReaderTrans ReaderSteps UseFacts ExKit Json Mxt Lua JsonFacts JsonTree PegFacts PegBytes SpecTree Trace PropTrack PropJson PropDemo.
From Verif Require Import Silent JsonHear.
From Coq Require Import Lia ZifyBool.

(* ------------------------------------------------------------------ C159 *)

(** Reading with [r] from [s] is the same in both grammars: result and error, text, position and Janus strings after
    it, whether it panics and whether it ends. *)
Definition reads_alike {L : GoLib} (e' e : env) (r : reader) (s : st) : Prop :=
  (forall x s', reads e' r s x s' -> exists t, reads e r s x t /\ same_place s' t) /\
  (forall x t, reads e r s x t -> exists s', reads e' r s x s' /\ same_place s' t) /\
  (panics e' r s <-> panics e r s) /\ (hangs e' r s <-> hangs e r s).
(** C159.  Functions mapped to any rules of a grammar do not influence reading, if all rules restore the position
    when they fail. *)
Theorem C159_mapping_changes_nothing {L : GoLib} e who ids r s : complete e -> restores e -> eall plainly e -> NoDup ids ->
  (forall i, In i ids -> (i < length e)%nat) -> rall plainly r = true -> in_text s -> reads_alike (map_rules who ids e) e r s.
Proof. intros C R P N B Hr I. exact (map_transparent e _ who (chosen ids) (map_altered who ids e N B) C R P r s Hr I). Qed.
Print Assumptions C159_mapping_changes_nothing.
(** So it is for JSON(), MXT() and Lua() and for each of their rules. *)
Theorem C159_grammars {L : GoLib} e g who ids s r : e = json_env /\ g = json \/ e = mxt_env /\ g = mxt \/ e = lua_env /\ g = lua -> NoDup ids ->
  (forall i, In i ids -> (i < length e)%nat) -> r = g \/ (exists i, r = RRule i) -> in_text s -> reads_alike (map_rules who ids e) e r s.
Proof.
  intros M N B Hr I.
  assert (H : complete e /\ restores e /\ eall plainly e /\ rall plainly g = true).
  { destruct M as [[-> ->]|[[-> ->]|[-> ->]]].
    - split; [apply complete_check; vm_compute; reflexivity|]. split; [apply restores_check; vm_compute; reflexivity|]. split; [apply eall_check; vm_compute; reflexivity|reflexivity].
    - split; [apply complete_check; vm_compute; reflexivity|]. split; [apply restores_check; vm_compute; reflexivity|]. split; [apply eall_check; vm_compute; reflexivity|reflexivity].
    - split; [apply complete_check; vm_compute; reflexivity|]. split; [apply restores_check; vm_compute; reflexivity|]. split; [apply eall_check; vm_compute; reflexivity|reflexivity]. }
  destruct H as (C & R & P & G). apply C159_mapping_changes_nothing; auto. destruct Hr as [->|[i ->]]; auto.
Qed.
Print Assumptions C159_grammars.

(* ------------------------------------------------------------------ C160 *)

(** The calls for parts of a text: of the function for the name of the part, with its place. *)
Definition calls_for (who : bytes -> nat) (l : list segment) : list (nat * token) := map (fun g => (who (s_info g), s_tok g)) l.
Lemma told_calls who l : calls (told who l) = calls_for who l.
Proof. induction l as [|g l IH]; [reflexivity|]. cbn. f_equal. exact IH. Qed.

Section Hyps.
Context {L : GoLib} (who : bytes -> nat) (ids : list nat) (Nd : NoDup ids) (Sub : incl ids stack_ids).
Notation E2 := (map_rules who ids json_env).
Lemma heard_covered : eall covered E2.
Proof. apply (map_covered json_env E2 who (chosen ids) (heard_altered who ids Nd Sub) demo_complete). apply json_covered. Qed.
Lemma heard_traces n b b' l : yields who ids n (IR (RRule jElement)) b true b' l -> forall c, traces E2 n (IR json) c b true c b' (told who l).
Proof. intros Y c. specialize (Y c). unfold json. inversion Y; subst; [discriminate|]. eapply te_grammar; eauto. Qed.
Lemma heard_run s a b b' l : at_split s a b -> yields who ids (slen (a ++ b)) (IR (RRule jElement)) b true b' l ->
  exists s', reads E2 json s None s' /\ pos (sc s') = slen (a ++ b) - slen b' /\ h_events (hp s') = h_events (hp s) ++ calls_for who l.
Proof.
  intros Sp Y. destruct (C103_every_trace_happens E2 json s a b true _ b' (told who l) Sp heard_covered eq_refl (heard_traces _ _ _ _ Y _)) as (x & s' & Rd & X & P & Ev).
  destruct x; [discriminate|]. exists s'. rewrite told_calls in Ev. auto.
Qed.
Lemma heard_eats i c b ok c' b' : eats json_env i c b ok c' b' <-> eats E2 i c b ok c' b'.
Proof.
  split; [apply map_eats with (who := who) (sel := chosen ids)|apply eats_map with (who := who) (sel := chosen ids)]; auto using heard_altered, demo_complete, demo_restores.
Qed.
End Hyps.

(** C160.  [Use] of JSON() with functions mapped to any of the rules Key, Object, Array, String, Number, Bool and Null:
    what was read is a JSON text, and the functions were called once for each such part of that text, with its place,
    children before parents. *)
Theorem C160_json_calls {L : GoLib} who ids s a b s' : NoDup ids -> incl ids stack_ids -> at_split s a b ->
  uses (map_rules who ids json_env) json s None s' ->
  exists w rest kids, b = w ++ rest /\ json_text Element w /\ json_nodes (named json_env ids) Element (slen a) w kids /\
    at_split s' (a ++ w) rest /\ h_events (hp s') = h_events (hp s) ++ calls_for who (flat_map post kids).
Proof.
  intros Nd Sub Sp U. pose proof (in_text_split _ _ _ Sp) as I. apply uses_reads in U as (s1 & Rd & Q); [|apply I]. cbn in Q. subst s1.
  pose proof (reads_eats _ json _ _ _ _ _ _ (heard_covered who ids Nd Sub) eq_refl (stands_split _ _ _ Sp) Rd) as (c2 & b2 & S1 & D).
  destruct (top_tree who ids Nd Sub (slen (a ++ b)) b) as [(w & kids & b' & -> & T & Y)|[O|C]].
  - exists w, b', kids. split; auto. split; [eapply tree_text; eauto|]. replace (slen (a ++ w ++ b') - slen (w ++ b')) with (slen a) in T by (rewrite !slen_app; lia).
    split; auto. destruct (heard_run who ids Nd Sub s a _ _ _ Sp Y) as (s2 & R2 & P & Ev). destruct (reads_fun _ _ _ _ _ _ _ R2 Rd) as [_ ->]. split; [|exact Ev].
    destruct (reads_keeps _ _ _ _ _ R2) as (F1 & _). destruct Sp as (Fs & Ps & Ls). split; [rewrite <- app_assoc; congruence|]. split; [rewrite P, !slen_app; lia|rewrite <- app_assoc; auto].
  - exfalso. apply (heard_eats who ids Nd Sub) in D. assert (O' : out json_env (IR json) b false b) by (intros c; apply json_eats, O). destruct (out_eats _ _ _ _ _ _ _ _ _ O' D) as [X _]. discriminate.
  - exfalso. apply (heard_eats who ids Nd Sub) in D. exact (json_stuck b C _ _ _ _ D).
Qed.
Print Assumptions C160_json_calls.
(** And every JSON text is read with these calls, if what follows does not continue it. *)
Theorem C160_every_json_text {L : GoLib} who ids s a w rest kids : NoDup ids -> incl ids stack_ids -> at_split s a (w ++ rest) ->
  json_nodes (named json_env ids) Element (slen a) w kids -> stops rest ->
  exists s', uses (map_rules who ids json_env) json s None s' /\ at_split s' (a ++ w) rest /\
    h_events (hp s') = h_events (hp s) ++ calls_for who (flat_map post kids).
Proof.
  intros Nd Sub Sp T St. pose proof (in_text_split _ _ _ Sp) as I.
  assert (Y : yields who ids (slen (a ++ w ++ rest)) (IR (RRule jElement)) (w ++ rest) true rest (flat_map post kids)).
  { apply (nodes_read who ids Nd Sub _ Element (slen a) w kids T rest); [rewrite !slen_app; lia|apply stops_follow; exact St]. }
  destruct (heard_run who ids Nd Sub s a _ _ _ Sp Y) as (s' & Rd & P & Ev). exists s'.
  split; [apply uses_reads; [apply I|]; exists s'; auto|]. split; [|exact Ev].
  destruct (reads_keeps _ _ _ _ _ Rd) as (F1 & _). destruct Sp as (Fs & Ps & Ls). split; [rewrite <- app_assoc; congruence|]. split; [rewrite P, !slen_app; lia|rewrite <- app_assoc; auto].
Qed.
Print Assumptions C160_every_json_text.
Definition who7 (n : bytes) : nat :=
  if bytes_eqb n (lit "key") then 0%nat else if bytes_eqb n (lit "object") then 1%nat else if bytes_eqb n (lit "array") then 2%nat else
  if bytes_eqb n (lit "string") then 3%nat else if bytes_eqb n (lit "number") then 4%nat else if bytes_eqb n (lit "bool") then 5%nat else 6%nat.
Definition t_json : bytes := lit "{" ++ [x22; x61; x22] ++ lit ":[1,true]}".
(** Functions on all seven rules. *)
Example C160_case {L : GoLib} : exists s', uses (map_rules who7 stack_ids json_env) json (init_st t_json) None s' /\
  h_events (hp s') = [(0%nat, mkTok 1 4); (4%nat, mkTok 6 7); (5%nat, mkTok 8 12); (2%nat, mkTok 5 13); (1%nat, mkTok 0 14)].
Proof. eexists. split; [exists 60%nat; vm_compute; reflexivity|reflexivity]. Qed.
(** A function on Number alone. *)
Example C160_number {L : GoLib} : exists s', uses (map_rules who7 [jNumber] json_env) json (init_st (lit "[12, [-3], 4]")) None s' /\
  h_events (hp s') = [(4%nat, mkTok 1 3); (4%nat, mkTok 6 8); (4%nat, mkTok 11 12)].
Proof. eexists. split; [exists 60%nat; vm_compute; reflexivity|reflexivity]. Qed.
(** It is not so for WS: the space is told twice, because Array tries Elements first. *)
Example C160_ws {L : GoLib} : exists s', uses (map_rules (fun _ => 9%nat) [jWS] json_env) json (init_st (lit "[ ]")) None s' /\
  h_events (hp s') = [(9%nat, mkTok 0 0); (9%nat, mkTok 1 2); (9%nat, mkTok 1 2); (9%nat, mkTok 3 3)].
Proof. eexists. split; [exists 60%nat; vm_compute; reflexivity|reflexivity]. Qed.
(** A text that is no JSON: the functions are called for what was read before. *)
Example C160_failing {L : GoLib} : exists x s', uses (map_rules who7 stack_ids json_env) json (init_st (lit "[1")) (Some x) s' /\
  h_events (hp s') = [(4%nat, mkTok 1 2)].
Proof. eexists. eexists. split; [exists 60%nat; vm_compute; reflexivity|reflexivity]. Qed.
(** C159: the error and the place are the same with and without functions. *)
Example C159_case {L : GoLib} : exists x s' t, reads (map_rules who7 stack_ids json_env) json (init_st (lit "[1")) (Some x) s' /\
  reads json_env json (init_st (lit "[1")) (Some x) t /\ same_place s' t /\ h_events (hp s') <> h_events (hp t).
Proof.
  eexists. eexists. eexists. split; [exists 60%nat; vm_compute; reflexivity|]. split; [exists 60%nat; vm_compute; reflexivity|]. split; [repeat split|discriminate].
Qed.
(** Without the condition on failing rules Map may change what is read: Map restores the position, Times does not. *)
Example C159_condition {L : GoLib} : let e := [mkRule (lit "r") (Some (RTimes 2 (RLit (lit "a"))))] in
  (exists s', reads e (RSeq [ROpt (RRule 0); RLit (lit "b")]) (init_st (lit "ab")) None s') /\
  (exists x s', reads (map_rules who7 [0%nat] e) (RSeq [ROpt (RRule 0); RLit (lit "b")]) (init_st (lit "ab")) (Some x) s').
Proof. split; [eexists; exists 20%nat; vm_compute; reflexivity|eexists; eexists; exists 20%nat; vm_compute; reflexivity]. Qed.
