(** PropDepth.v - C147 to C150: how deeply Reads nest. *)
From Verif Require Import PropLog PropLuaStyle JsonDepth LuaDepth.
From Verif Require Import Json Mxt Lua UseFacts ExKit LogFacts PegBytes PegFacts PegTotal TrackFacts PropTotal PropTrack PropMxtText PropCost PropMxtCost DepthBound CostFacts Cost.
From Coq Require Import Lia.

Local Open Scope nat_scope.
(* ------------------------------------------------------------------ C147 *)

(** Readers of one rune that may succeed without consuming, and those that do not consume an opening bracket. *)
Definition at_end (r : reader) : bool := match rune_test r with Some f => eps_test f | None => true end.
Lemma at_end_ok r f b : rune_test r = Some f -> at_end r = false -> test f b = true -> tally (fun _ => true) (after_rune b) < tally (fun _ => true) b.
Proof.
  unfold at_end. intros -> E T. assert (A : forall b, tally (fun _ => true) b = length b) by (induction b0; cbn in *; auto; unfold tally in *; cbn; auto). rewrite !A.
  destruct b as [|x b]; [unfold test in T; cbn in T; unfold eps_test in E; congruence|]. apply after_less. discriminate.
Qed.
(** Reads of rules. *)
Definition ruled : reader -> nat := rule_calls (fun _ => true).
Lemma ruled_more sel r : rule_calls sel r <= ruled r.
Proof. unfold ruled, rule_calls. destruct r; auto; destruct (sel _); auto. Qed.
Lemma ruled_each r : ruled r <= each r.
Proof. apply rule_calls_each. Qed.

(** C147.  A Log that watches rules of a grammar: the new entries of a Read that returns have levels up to some [n] above its own level,
    and that level occurs; [n] is the length of the longest chain of Reads of these rules inside each other ([dives], Depth.v). *)
Theorem C147_levels_are_depths {L : GoLib} e lg ids r s a b x s' : complete e -> eall monitorless e -> eall covered e -> NoDup ids -> (forall i, In i ids -> i < length e) ->
  rall monitorless r = true -> rall covered r = true -> at_split s a b -> log_ok (get_log lg (hp s)) -> reads (monitor_rules lg ids e) r s x s' ->
  exists new c' b' n, log_entries (get_log lg (hp s')) = log_entries (get_log lg (hp s)) ++ new /\
    dives e (rule_calls (chosen ids)) (IR r) (h_cells (hp s)) b (okx x) c' b' n /\
    (forall en, In en new -> e_level en <= l_level (get_log lg (hp s)) + Z.of_nat n)%Z /\
    (0 < n -> exists en, In en new /\ e_level en = (l_level (get_log lg (hp s)) + Z.of_nat n)%Z).
Proof.
  intros Co Me Ce Nd B Mr Cr Sp Ok Rd. destruct (log_levels e lg ids r s a b x s' Co Me Ce Nd B Mr Cr Sp Ok Rd) as (new & c' & b' & n & E & _ & D & Lv). exists new, c', b', n. auto.
Qed.
Print Assumptions C147_levels_are_depths.
(** A grammar for which the check [shallow] succeeds nests Reads (weighing [w0]) no deeper than [K] for every byte of the rest of
    the text that counts, and a constant. *)
Theorem C147_shallow_grammars {L : GoLib} e w0 op all lf N K phi r s a b x s' : (all = true -> forall y, op y = true) ->
  (forall q f t, rune_test q = Some f -> lf q = false -> test f t = true -> tally op (after_rune t) < tally op t) ->
  shallow e w0 op all lf N K phi = true -> eall covered e -> rall covered r = true -> at_split s a b -> reads e r s x s' ->
  exists c' b' n, dives e w0 (IR r) (h_cells (hp s)) b (okx x) c' b' n /\ (forall ok2 c2 b2 n2, dives e w0 (IR r) (h_cells (hp s)) b ok2 c2 b2 n2 -> n2 = n) /\
    n <= K * tally op b + pot w0 op all lf N K phi r.
Proof.
  intros A Lf Sh Ce Cr Sp R. destruct (reads_eats e r _ _ _ _ _ _ Ce Cr (stands_split _ _ _ Sp) R) as (c' & b' & _ & D). destruct (eats_dives _ w0 _ _ _ _ _ _ D) as (n & W).
  exists c', b', n. split; auto. split; [intros; symmetry; eapply dives_det; eauto|]. eapply shallow_bound; eauto.
Qed.
Print Assumptions C147_shallow_grammars.
(** One rule, [A = Opt("(" A ")")]: two Reads of [A] fit in three bytes. *)
Definition nest_rule : env := [mkRule (lit "A") (Some (ROpt (RSeq [RRune 0x28; RRule 0; RRune 0x29])))].
Example C147_case {L : GoLib} : exists s', reads (L := roomy) nest_rule (RRule 0) (init_st (lit "(())")) None s' /\ pos (sc s') = 4%Z /\
  shallow nest_rule ruled (fun _ => true) true at_end (fun _ => true) 1 (fun _ => 0) = true /\ pot ruled (fun _ => true) true at_end (fun _ => true) 1 (fun _ => 0) (RRule 0) = 1 /\
  shallow nest_rule ruled (fun _ => true) true at_end (fun _ => true) 0 (fun _ => 0) = false /\ complete nest_rule /\ eall covered nest_rule /\ eall monitorless nest_rule.
Proof.
  eexists. split; [exists 30; vm_compute; reflexivity|]. split; [reflexivity|]. split; [vm_compute; reflexivity|]. split; [vm_compute; reflexivity|]. split; [vm_compute; reflexivity|].
  split; [intros [|[|i]] I; cbn in *; try discriminate; lia|]. split; apply eall_check; vm_compute; reflexivity.
Qed.

(* ------------------------------------------------------------------ C148 *)

Definition never (x : byte) : bool := false.
Lemma no_all op : false = true -> forall x : byte, op x = true. Proof. intros H. discriminate H. Qed.
Lemma no_leaf (op : byte -> bool) (r : reader) (f : Z -> nat -> bool) b : rune_test r = Some f -> true = false -> test f b = true -> tally op (after_rune b) < tally op b.
Proof. intros _ H. discriminate H. Qed.
Definition mxt_depths : list nat := [16; 12; 10; 4; 4; 4; 6; 4; 7; 7; 7; 3; 1; 2].
Definition mxt_levels : list nat := [5; 4; 3; 1; 1; 2; 1; 1; 2; 2; 2; 1; 0; 0].
Lemma mxt_dive {L : GoLib} c b ok c' b' n : dives mxt_env each (IR mxt) c b ok c' b' n -> n <= 17.
Proof.
  intros D. assert (S : shallow mxt_env each never false (fun _ => true) (fun _ => true) 0 (phi_of mxt_depths) = true) by (vm_compute; reflexivity).
  assert (P : pot each never false (fun _ => true) (fun _ => true) 0 (phi_of mxt_depths) mxt = 17) by (vm_compute; reflexivity).
  pose proof (shallow_bound mxt_env each never false (fun _ => true) (fun _ => true) 0 (phi_of mxt_depths) (no_all never) (no_leaf never) S mxt c b ok c' b' n D) as X. rewrite P in X. exact X.
Qed.
Lemma mxt_rules_dive {L : GoLib} c b ok c' b' n : dives mxt_env ruled (IR mxt) c b ok c' b' n -> n <= 6.
Proof.
  intros D. assert (S : shallow mxt_env ruled never false (fun _ => true) (fun _ => true) 0 (phi_of mxt_levels) = true) by (vm_compute; reflexivity).
  assert (P : pot ruled never false (fun _ => true) (fun _ => true) 0 (phi_of mxt_levels) mxt = 6) by (vm_compute; reflexivity).
  pose proof (shallow_bound mxt_env ruled never false (fun _ => true) (fun _ => true) 0 (phi_of mxt_levels) (no_all never) (no_leaf never) S mxt c b ok c' b' n D) as X. rewrite P in X. exact X.
Qed.
(** C148.  Whatever the text is and whatever rules a Log watches, the entries of MXT() have levels up to 6 above the level of the Log. *)
Theorem C148_mxt_levels {L : GoLib} lg ids s a b x s' : NoDup ids -> (forall i, In i ids -> i < length mxt_env) -> at_split s a b -> log_ok (get_log lg (hp s)) ->
  uses (monitor_rules lg ids mxt_env) mxt s x s' ->
  exists new, log_entries (get_log lg (hp s')) = log_entries (get_log lg (hp s)) ++ new /\ forall en, In en new -> (e_level en <= l_level (get_log lg (hp s)) + 6)%Z.
Proof.
  intros Nd Hi Sp Ok U. destruct mxt_still as (Co & Me & Ce & Mr & Cr). apply uses_reads in U as (s1 & R & ->); [|destruct Sp as (_ & -> & _); apply slen_nonneg].
  destruct (log_levels mxt_env lg ids mxt s a b x s1 Co Me Ce Nd Hi Mr Cr Sp Ok R) as (new & c' & b' & n & E & _ & D & Le & _).
  exists new. split; [destruct x; rewrite ?log_move; exact E|]. destruct (dives_more _ _ ruled _ _ _ _ _ _ _ (ruled_more (chosen ids)) D) as (m & D1 & Lm). apply mxt_rules_dive in D1.
  intros en I. specialize (Le en I). lia.
Qed.
Print Assumptions C148_mxt_levels.
(** And no more than 17 Reads of readers are ever inside each other. *)
Theorem C148_mxt_depth {L : GoLib} s a b x s' : at_split s a b -> uses mxt_env mxt s x s' ->
  exists c' b' n, dives mxt_env each (IR mxt) (h_cells (hp s)) b (okx x) c' b' n /\ n <= 17.
Proof.
  intros Sp U. destruct mxt_still as (Co & Me & Ce & Mr & Cr). apply uses_reads in U as (s1 & R & ->); [|destruct Sp as (_ & -> & _); apply slen_nonneg].
  destruct (reads_eats mxt_env mxt _ _ _ _ _ _ Ce Cr (stands_split _ _ _ Sp) R) as (c' & b' & _ & D). destruct (eats_dives _ each _ _ _ _ _ _ D) as (n & W).
  exists c', b', n. split; auto. now apply mxt_dive in W.
Qed.
Print Assumptions C148_mxt_depth.
Example C148_case : exists s', uses (L := roomy) (monitor_rules 0 [mChunks; mChunk; mHeader; mName; mSalt; mWord; mWordChar] (mxt_env (L := roomy))) mxt (init_st (lit "// x [s] -->")) None s' /\
  pos (sc s') = 12%Z /\ In 6%Z (map e_level (log_entries (get_log 0 (hp s')))) /\ forallb (fun v => Z.leb v 6) (map e_level (log_entries (get_log 0 (hp s')))) = true.
Proof. eexists. split; [run 300|]. split; [vm_compute; reflexivity|]. split; [vm_compute; intuition auto|vm_compute; reflexivity]. Qed.

(* ------------------------------------------------------------------ C149 *)

Definition opening (x : byte) : bool := Byte.eqb x x5b || Byte.eqb x x7b.
Definition no_opening (r : reader) : bool := match r with RRune c => negb ((c =? 0x5B) || (c =? 0x7B))%Z | _ => true end.
Lemma no_opening_ok r f b : rune_test r = Some f -> no_opening r = false -> test f b = true -> tally opening (after_rune b) < tally opening b.
Proof.
  destruct r; try discriminate. cbn [no_opening]. intros H N T. assert (R : (r = 0x5B \/ r = 0x7B)%Z) by lia. assert (B : (0 <= r < 128)%Z) by lia.
  pose proof (e_test (json_env (L := roomy)) (RRune r) f [] b H) as X. destruct (eats_det _ _ _ _ _ _ _ X _ _ _ (t_rune (L := roomy) r B [] b)) as (E1 & _ & E2). rewrite T in *. rewrite <- E1 in E2. rewrite E2.
  destruct b as [|x b]; [discriminate E1|]. cbn [first tl] in *. unfold tally. cbn [filter]. replace (opening x) with true; [cbn; lia|].
  unfold is in E1. assert (bz x = r) as Q by lia. unfold opening. destruct R as [->| ->]; destruct x; try discriminate Q; reflexivity.
Qed.
Definition json_dry (i : nat) : bool := negb (Nat.eqb i jArray || Nat.eqb i jObject).
Definition json_depths : list nat := [14; 12; 22; 18; 12; 10; 20; 16; 12; 10; 8; 5; 1; 9; 7; 5; 5; 1; 1; 2; 2; 2; 1; 2].
Definition json_rules : list nat := [5; 4; 8; 7; 4; 3; 7; 6; 4; 3; 2; 1; 0; 2; 1; 1; 1; 0; 0; 0; 0; 0; 0; 0].
Definition json_values : list nat := [0; 0; 1; 1; 0; 0; 1; 1; 0; 0; 0; 0; 0; 0; 0; 0; 0; 0; 0; 0; 0; 0; 0; 0].
Lemma json_bound {L : GoLib} w0 K phi m : shallow json_env w0 opening false no_opening json_dry K phi = true -> pot w0 opening false no_opening json_dry K phi json = m ->
  forall c b ok c' b' n, dives json_env w0 (IR json) c b ok c' b' n -> n <= K * tally opening b + m.
Proof. intros S <- c b ok c' b' n D. exact (shallow_bound json_env w0 opening false no_opening json_dry K phi (no_all opening) no_opening_ok S json c b ok c' b' n D). Qed.
Lemma json_dive {L : GoLib} c b ok c' b' n : dives json_env each (IR json) c b ok c' b' n -> n <= 13 * tally opening b + 17.
Proof. apply (json_bound each 13 (phi_of json_depths)); vm_compute; reflexivity. Qed.
Lemma json_rules_dive {L : GoLib} c b ok c' b' n : dives json_env ruled (IR json) c b ok c' b' n -> n <= 5 * tally opening b + 7.
Proof. apply (json_bound ruled 5 (phi_of json_rules)); vm_compute; reflexivity. Qed.
Lemma json_values_dive {L : GoLib} c b ok c' b' n : dives json_env vals (IR json) c b ok c' b' n -> n <= 1 * tally opening b + 1.
Proof. apply (json_bound vals 1 (phi_of json_values)); vm_compute; reflexivity. Qed.
(** C149.  Whatever rules a Log watches, the entries of JSON() have levels up to 5 for every opening bracket or brace in the rest of
    the text, and 7, above the level of the Log. *)
Theorem C149_json_levels {L : GoLib} lg ids s a b x s' : NoDup ids -> (forall i, In i ids -> i < length json_env) -> at_split s a b -> log_ok (get_log lg (hp s)) ->
  uses (monitor_rules lg ids json_env) json s x s' ->
  exists new, log_entries (get_log lg (hp s')) = log_entries (get_log lg (hp s)) ++ new /\
    forall en, In en new -> (e_level en <= l_level (get_log lg (hp s)) + Z.of_nat (5 * tally opening b + 7))%Z.
Proof.
  intros Nd Hi Sp Ok U. destruct json_still as (Co & Me & Ce & Mr & Cr). apply uses_reads in U as (s1 & R & ->); [|destruct Sp as (_ & -> & _); apply slen_nonneg].
  destruct (log_levels json_env lg ids json s a b x s1 Co Me Ce Nd Hi Mr Cr Sp Ok R) as (new & c' & b' & n & E & _ & D & Le & _).
  exists new. split; [destruct x; rewrite ?log_move; exact E|]. destruct (dives_more _ _ ruled _ _ _ _ _ _ _ (ruled_more (chosen ids)) D) as (m & D1 & Lm). apply json_rules_dive in D1.
  intros en I. specialize (Le en I). lia.
Qed.
Print Assumptions C149_json_levels.
Theorem C149_json_depth {L : GoLib} s a b x s' : at_split s a b -> uses json_env json s x s' ->
  exists c' b' n, dives json_env each (IR json) (h_cells (hp s)) b (okx x) c' b' n /\ n <= 13 * tally opening b + 17.
Proof.
  intros Sp U. destruct json_still as (Co & Me & Ce & Mr & Cr). apply uses_reads in U as (s1 & R & ->); [|destruct Sp as (_ & -> & _); apply slen_nonneg].
  destruct (reads_eats json_env json _ _ _ _ _ _ Ce Cr (stands_split _ _ _ Sp) R) as (c' & b' & _ & D). destruct (eats_dives _ each _ _ _ _ _ _ D) as (n & W).
  exists c', b', n. split; auto. now apply json_dive in W.
Qed.
Print Assumptions C149_json_depth.
Lemma json_value_in {L : GoLib} i : In i [jValue] -> i < length json_env.
Proof. intros [<-|[]]. vm_compute. repeat constructor. Qed.
(** A Log that watches the rule Value: the greatest level of the new entries for a JSON text is its nesting ([nests], SpecNest.v). *)
Theorem C149_json_nesting {L : GoLib} n w lg s a b : nests Element n w -> follow b -> at_split s a (w ++ b) -> log_ok (get_log lg (hp s)) ->
  exists s' new, uses (monitor_rules lg [jValue] json_env) json s None s' /\ at_split s' (a ++ w) b /\
    log_entries (get_log lg (hp s')) = log_entries (get_log lg (hp s)) ++ new /\
    (forall en, In en new -> e_level en <= l_level (get_log lg (hp s)) + Z.of_nat n)%Z /\
    exists en, In en new /\ e_level en = (l_level (get_log lg (hp s)) + Z.of_nat n)%Z.
Proof.
  intros Ne Fo Sp Ok. destruct json_still as (Co & Me & Ce & Mr & Cr). assert (P : (0 <= pos (sc s))%Z) by (destruct Sp as (_ & -> & _); apply slen_nonneg).
  assert (Nd : NoDup [jValue]) by (repeat constructor; auto). pose proof (in_text_split _ _ _ Sp) as I. pose proof (stands_split _ _ _ Sp) as St.
  pose proof (json_nests n w b Ne Fo (h_cells (hp s))) as D. pose proof (dives_eats _ _ _ _ _ _ _ _ _ D) as Ea.
  destruct (eats_reads _ _ _ _ _ _ _ _ _ Ea St) as (x & s2 & R & Ox & St2). assert (x = None) as -> by (destruct x; [discriminate Ox|reflexivity]).
  destruct (C100_monitored_grammar_reads_the_same json_env lg [jValue] json s Co Me Nd json_value_in Mr I) as (_ & T & _). destruct (T _ _ R) as (s1 & R1 & Sm).
  destruct (log_levels json_env lg [jValue] json s a (w ++ b) None s1 Co Me Ce Nd json_value_in Mr Cr Sp Ok R1) as (new & c' & b' & m & E & _ & D1 & Le & Ex).
  pose proof (dives_det _ _ _ _ _ _ _ _ _ D1 _ _ _ _ D) as Em. subst m.
  assert (N0 : 0 < n). { clear -Ne. remember Element as o eqn:Eo. induction Ne; try discriminate Eo. inversion Ne; subst; lia. }
  exists s1, new. split; [apply uses_reads; auto; exists s1; auto|]. split.
  - eapply at_log; eauto. eapply split_stands; [exact St2|]. now rewrite app_assoc.
  - auto.
Qed.
Print Assumptions C149_json_nesting.
(** So the levels grow without bound: [nested n] is a text of 2 n bytes, for which the level of the Log is exceeded by n + 1. *)
Fixpoint nested (n : nat) : bytes := match n with O => [] | S n => lit "[" ++ nested n ++ lit "]" end.
Lemma nested_nests n : nests Value (n + 2) (nested (S n)).
Proof.
  induction n as [|n IH]; [exact (ne_array0 [] (Forall_nil _))|]. change (nested (S (S n))) with (lit "[" ++ nested (S n) ++ lit "]"). apply (ne_array (n + 2)).
  apply ne_elements1. rewrite <- (app_nil_r (nested (S n))). exact (ne_element [] _ _ [] (Forall_nil _) IH (Forall_nil _)).
Qed.
Lemma nested_length n : length (nested n) = 2 * n.
Proof. induction n as [|n IH]; auto. cbn [nested]. rewrite !app_length, IH. cbn. lia. Qed.
Theorem C149_levels_grow {L : GoLib} n lg s a : at_split s a (nested (S n)) -> log_ok (get_log lg (hp s)) ->
  exists s' en, uses (monitor_rules lg [jValue] json_env) json s None s' /\ at_split s' (a ++ nested (S n)) [] /\
    In en (log_entries (get_log lg (hp s'))) /\ e_level en = (l_level (get_log lg (hp s)) + Z.of_nat (n + 2))%Z.
Proof.
  intros Sp Ok. rewrite <- (app_nil_r (nested (S n))) in Sp.
  assert (Ne : nests Element (n + 2) (nested (S n))) by (rewrite <- (app_nil_r (nested (S n))); exact (ne_element [] _ _ [] (Forall_nil _) (nested_nests n) (Forall_nil _))).
  destruct (C149_json_nesting (n + 2) (nested (S n)) lg s a [] Ne ltac:(repeat split; reflexivity) Sp Ok) as (s' & new & U & At & E & _ & en & I & Le).
  exists s', en. split; auto. split; auto. split; auto. rewrite E. apply in_or_app. auto.
Qed.
Print Assumptions C149_levels_grow.
Example C149_case : exists s', uses (L := roomy) (monitor_rules 0 [jValue] (json_env (L := roomy))) json (init_st (lit "[{}, [[1], 2]]")) None s' /\ pos (sc s') = 14%Z /\
  map e_level (log_entries (get_log 0 (hp s'))) = [1; 2; 2; 3; 4; 3]%Z /\ tally opening (lit "[{}, [[1], 2]]") = 4.
Proof. eexists. split; [run 300|]. repeat split; vm_compute; reflexivity. Qed.
Example C149_case_nests : nests Element 4 (lit "[{}, [[1], 2]]") /\ follow [].
Proof.
  split; [|repeat split; reflexivity].
  assert (W0 : j_ws []) by constructor. assert (W1 : j_ws (lit " ")) by (repeat constructor).
  assert (D : forall x, (0x31 <= bz x <= 0x39)%Z -> nests Value 1 [x]).
  { intros x H. apply ne_number. exists [x], [], []. split; auto. split; [exists [], [x]; split; auto; split; auto; right; exists x, []; auto|]. split; left; auto. }
  assert (V1 : nests Element 1 (lit "1")) by (apply (ne_element [] 1 (lit "1") []); auto; apply D; cbn; lia).
  assert (V2 : nests Element 1 (lit " 2")) by (apply (ne_element (lit " ") 1 (lit "2") []); auto; apply D; cbn; lia).
  assert (A1 : nests Element 2 (lit "[1]")) by (apply (ne_element [] 2 (lit "[1]") []); auto; apply (ne_array 1 (lit "1")), ne_elements1; auto).
  assert (A2 : nests Value 3 (lit "[[1], 2]")) by (apply (ne_array 2 (lit "[1], 2")); apply (ne_elements 2 (lit "[1]") 1 (lit " 2")); auto; apply ne_elements1; auto).
  apply (ne_element [] 4 (lit "[{}, [[1], 2]]") []); auto. apply (ne_array 3 (lit "{}, [[1], 2]")). apply (ne_elements 1 (lit "{}") 3 (lit " [[1], 2]")).
  - apply (ne_element [] 1 (lit "{}") []); auto. apply (ne_object0 []); auto.
  - apply ne_elements1. apply (ne_element (lit " ") 3 (lit "[[1], 2]") []); auto.
Qed.

(* ------------------------------------------------------------------ C150 *)

Definition lua_depths : list nat := [2; 2; 4; 4; 4; 2; 2; 1; 20; 22; 13; 9; 8; 3; 15; 13; 13; 15; 18; 20; 4; 19; 10; 12; 4; 2; 11; 3; 4; 1; 3; 8; 8; 8; 8; 3; 3; 3; 3; 3; 15; 18; 19; 20].
Definition lua_rules : list nat := [0; 0; 0; 0; 0; 0; 0; 0; 5; 6; 2; 2; 1; 0; 3; 2; 2; 3; 4; 5; 1; 4; 1; 2; 1; 0; 1; 0; 1; 0; 0; 0; 0; 0; 0; 0; 0; 0; 0; 0; 3; 4; 5; 5].
Definition lua_exps : list nat := [0; 0; 0; 0; 0; 0; 0; 0; 1; 1; 0; 0; 0; 0; 0; 0; 0; 0; 0; 1; 0; 0; 0; 0; 0; 0; 0; 0; 0; 0; 0; 0; 0; 0; 0; 0; 0; 0; 0; 0; 0; 0; 0; 0].
Lemma always_all : true = true -> forall x : byte, (fun _ => true) x = true. Proof. reflexivity. Qed.
Lemma tally_length b : tally (fun _ => true) b = length b.
Proof. unfold tally. induction b as [|x b IH]; cbn; auto. Qed.
Lemma lua_bound {L : GoLib} w0 K phi m : shallow lua_env w0 (fun _ => true) true at_end (nullable lua_nullable) K phi = true -> pot w0 (fun _ => true) true at_end (nullable lua_nullable) K phi lua = m ->
  forall c b ok c' b' n, dives lua_env w0 (IR lua) c b ok c' b' n -> n <= K * length b + m.
Proof.
  intros S <- c b ok c' b' n D. rewrite <- tally_length.
  exact (shallow_bound lua_env w0 (fun _ => true) true at_end (nullable lua_nullable) K phi always_all at_end_ok S lua c b ok c' b' n D).
Qed.
Lemma lua_dive {L : GoLib} c b ok c' b' n : dives lua_env each (IR lua) c b ok c' b' n -> n <= 12 * length b + 20.
Proof. apply (lua_bound each 12 (phi_of lua_depths)); vm_compute; reflexivity. Qed.
Lemma lua_rules_dive {L : GoLib} c b ok c' b' n : dives lua_env ruled (IR lua) c b ok c' b' n -> n <= 5 * length b + 6.
Proof. apply (lua_bound ruled 5 (phi_of lua_rules)); vm_compute; reflexivity. Qed.
Lemma lua_exps_dive {L : GoLib} c b ok c' b' n : dives lua_env exps (IR lua) c b ok c' b' n -> n <= 1 * length b + 0.
Proof. apply (lua_bound exps 1 (phi_of lua_exps)); vm_compute; reflexivity. Qed.
(** C150.  Whatever rules a Log watches, the entries of Lua() have levels up to 5 for every byte of the rest of the text, and 6, above
    the level of the Log; and up to one for every byte if it watches Exp alone. *)
Theorem C150_lua_levels {L : GoLib} lg ids s a b x s' : NoDup ids -> (forall i, In i ids -> i < length lua_env) -> at_split s a b -> log_ok (get_log lg (hp s)) ->
  uses (monitor_rules lg ids lua_env) lua s x s' ->
  exists new, log_entries (get_log lg (hp s')) = log_entries (get_log lg (hp s)) ++ new /\
    (forall en, In en new -> e_level en <= l_level (get_log lg (hp s)) + Z.of_nat (5 * length b + 6))%Z /\
    (ids = [lExp] -> forall en, In en new -> e_level en <= l_level (get_log lg (hp s)) + slen b)%Z.
Proof.
  intros Nd Hi Sp Ok U. destruct lua_still as (Co & Me & Ce & Mr & Cr). apply uses_reads in U as (s1 & R & ->); [|destruct Sp as (_ & -> & _); apply slen_nonneg].
  destruct (log_levels lua_env lg ids lua s a b x s1 Co Me Ce Nd Hi Mr Cr Sp Ok R) as (new & c' & b' & n & E & _ & D & Le & _).
  exists new. split; [destruct x; rewrite ?log_move; exact E|]. split.
  - destruct (dives_more _ _ ruled _ _ _ _ _ _ _ (ruled_more (chosen ids)) D) as (m & D1 & Lm). apply lua_rules_dive in D1. intros en I. specialize (Le en I). lia.
  - intros -> en I. apply lua_exps_dive in D. specialize (Le en I). unfold slen. lia.
Qed.
Print Assumptions C150_lua_levels.
Theorem C150_lua_depth {L : GoLib} s a b x s' : at_split s a b -> uses lua_env lua s x s' ->
  exists c' b' n, dives lua_env each (IR lua) (h_cells (hp s)) b (okx x) c' b' n /\ n <= 12 * length b + 20.
Proof.
  intros Sp U. destruct lua_still as (Co & Me & Ce & Mr & Cr). apply uses_reads in U as (s1 & R & ->); [|destruct Sp as (_ & -> & _); apply slen_nonneg].
  destruct (reads_eats lua_env lua _ _ _ _ _ _ Ce Cr (stands_split _ _ _ Sp) R) as (c' & b' & _ & D). destruct (eats_dives _ each _ _ _ _ _ _ D) as (n & W).
  exists c', b', n. split; auto. now apply lua_dive in W.
Qed.
Print Assumptions C150_lua_depth.
(** And they grow: for the text [tables n] of 2 n + 4 bytes a Log that watches Exp has an entry whose level exceeds that of the Log by n + 1 at least. *)
Theorem C150_levels_grow {L : GoLib} n lg s a : at_split s a (tables n) -> log_ok (get_log lg (hp s)) ->
  exists s' en, uses (monitor_rules lg [lExp] lua_env) lua s None s' /\ at_split s' (a ++ tables n) [] /\
    In en (log_entries (get_log lg (hp s'))) /\ (l_level (get_log lg (hp s)) + Z.of_nat (n + 1) <= e_level en)%Z.
Proof.
  intros Sp Ok. destruct lua_still as (Co & Me & Ce & Mr & Cr). assert (P : (0 <= pos (sc s))%Z) by (destruct Sp as (_ & -> & _); apply slen_nonneg).
  assert (Nd : NoDup [lExp]) by (repeat constructor; auto). pose proof (in_text_split _ _ _ Sp) as I.
  destruct (C124_style_is_read s a (tables n) Sp (tables_style n)) as (s2 & U & At). apply uses_reads in U as (s3 & R & ->); auto.
  destruct (C100_monitored_grammar_reads_the_same lua_env lg [lExp] lua s Co Me Nd lua_exp_in Mr I) as (_ & T & _). destruct (T _ _ R) as (s1 & R1 & Sm).
  destruct (log_levels lua_env lg [lExp] lua s a (tables n) None s1 Co Me Ce Nd lua_exp_in Mr Cr Sp Ok R1) as (new & c' & b' & k & E & _ & D & _ & Ex).
  apply chunk_dive in D. destruct Ex as (en & In1 & Lv); [lia|]. exists s1, en. split; [apply uses_reads; auto; exists s1; auto|]. split; [eapply at_log; eauto|].
  split; [rewrite E; apply in_or_app; auto|]. rewrite Lv. lia.
Qed.
Print Assumptions C150_levels_grow.
Example C150_case : exists s', uses (L := roomy) (monitor_rules 0 [lExp] (lua_env (L := roomy))) lua (init_st (lit "x={{}}")) None s' /\ pos (sc s') = 6%Z /\
  map e_level (log_entries (get_log 0 (hp s'))) = [1; 2; 3; 3; 2; 3; 3]%Z /\ tables 1 = lit "x={{}}".
Proof. eexists. split; [run 300|]. repeat split; vm_compute; reflexivity. Qed.
