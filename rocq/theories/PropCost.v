(** PropCost.v - C134 and C135: how many Reads Lua() and JSON() take. *)
From Verif Require Import PropLog JsonCost.
From Verif Require Import LuaCost LuaSyntax UseFacts ExKit LogFacts TrackFacts PropLuaSyntax PropLuaStyle PropTrack.
From Coq Require Import Lia.

Local Open Scope nat_scope.
(* ------------------------------------------------------------------ C134 *)

(** A text of 2 n + 4 bytes: an assignment of [n] tables around an empty one. *)
Definition tables (n : nat) : bytes := lit "x=" ++ nest n.
Lemma tables_length n : length (tables n) = 2 * n + 4.
Proof. unfold tables. rewrite app_length, nest_length. cbn. lia. Qed.
Lemma tables_style n : lua_style (tables n).
Proof.
  apply (s_block false [] true (tables n)); [blank_|]. rewrite <- (app_nil_r (tables n)). apply (s_stat true true (tables n) [] true false []); [|blank_|apply s_stop|auto|auto].
  apply (s_assign true (lit "x") [] [] (nest n)); [|blank_|blank_|].
  - apply s_var_one. apply (s_var (lit "x") None []); [tidy_|apply s_end|discriminate].
  - apply s_one, s_operand, s_table, nest_style.
Qed.
Lemma lua_still {L : GoLib} : complete lua_env /\ eall monitorless lua_env /\ eall covered lua_env /\ rall monitorless lua = true /\ rall covered lua = true.
Proof. destruct lua_quiet as (A & B & _ & _ & C). repeat split; auto. apply eall_check. vm_compute. reflexivity. Qed.
Lemma lua_exp_in {L : GoLib} i : In i [lExp] -> i < length lua_env.
Proof. intros [<-|[]]. vm_compute. repeat constructor. Qed.
Lemma at_log s1 s2 a b : same_but_logs s1 s2 -> at_split s2 a b -> at_split s1 a b.
Proof. intros (E & _). unfold at_split. rewrite E. auto. Qed.

(** C134.  Lua() reads [tables n] to the end, but a Log that monitors the rule Exp has at least 2 ^ (n + 1) - 1 entries more then. *)
Theorem C134_nested_tables_exact {L : GoLib} n lg s a : at_split s a (tables n) -> log_ok (get_log lg (hp s)) ->
  exists s' new, uses (monitor_rules lg [lExp] lua_env) lua s None s' /\ at_split s' (a ++ tables n) [] /\
    log_entries (get_log lg (hp s')) = log_entries (get_log lg (hp s)) ++ new /\ 2 ^ (n + 1) - 1 <= length new.
Proof.
  intros Sp Ok. destruct lua_still as (Co & Me & Ce & Mr & Cr). assert (P : (0 <= pos (sc s))%Z) by (destruct Sp as (_ & -> & _); apply slen_nonneg).
  assert (Nd : NoDup [lExp]) by (repeat constructor; auto). pose proof (in_text_split _ _ _ Sp) as I.
  destruct (C124_style_is_read s a (tables n) Sp (tables_style n)) as (s2 & U & At). apply uses_reads in U as (s3 & R & ->); auto.
  destruct (C100_monitored_grammar_reads_the_same lua_env lg [lExp] lua s Co Me Nd lua_exp_in Mr I) as (_ & T & _). destruct (T _ _ R) as (s1 & R1 & Sm).
  destruct (log_counts lua_env lg [lExp] lua s a (tables n) None s1 Co Me Ce Nd lua_exp_in Mr Cr Sp Ok R1) as (new & c' & b' & E & _ & W).
  exists s1, new. split; [apply uses_reads; auto; exists s1; auto|]. split; [eapply at_log; eauto|]. split; auto. rewrite Nat.add_1_r. eapply chunk_cost. exact W.
Qed.
Print Assumptions C134_nested_tables_exact.
Lemma square_power m : 5 <= m -> m * m < 2 ^ m.
Proof. induction 1 as [|m H IH]; [cbn; lia|]. cbn [Nat.pow]. nia. Qed.
Lemma power_wins a d n m : m = a + 4 * d + 5 -> n = 2 ^ m -> 2 ^ a * (2 * n + 5) ^ d < 2 ^ (n + 1) - 1.
Proof.
  intros Em En. pose proof (square_power m ltac:(lia)) as Sq. assert (A2 : 25 <= 2 ^ m) by nia. rewrite <- En in *.
  assert (A3 : (2 * n + 5) ^ d <= 2 ^ ((m + 2) * d)).
  { rewrite Nat.pow_mul_r. apply Nat.pow_le_mono_l. rewrite Nat.pow_add_r, <- En. cbn [Nat.pow]. lia. }
  assert (A4 : 2 ^ a * (2 * n + 5) ^ d <= 2 ^ (a + (m + 2) * d)) by (rewrite Nat.pow_add_r; apply Nat.mul_le_mono; auto).
  assert (A5 : a + (m + 2) * d < n) by nia. assert (A6 : 2 ^ (a + (m + 2) * d) <= 2 ^ n) by (apply Nat.pow_le_mono_r; lia).
  rewrite Nat.add_1_r. cbn [Nat.pow]. assert (2 <= 2 ^ n) by (change 2 with (2 ^ 1) at 1; apply Nat.pow_le_mono_r; lia). lia.
Qed.
(** So no polynomial in the length of the text bounds the number of Reads of Exp alone, as far as texts reach. *)
Theorem C134_polynomially_many_reads_refuted {L : GoLib} a d : a + 4 * d <= 56 -> ~ forall lg s u t x s' new, at_split s u t -> log_ok (get_log lg (hp s)) ->
  uses (monitor_rules lg [lExp] lua_env) lua s x s' -> log_entries (get_log lg (hp s')) = log_entries (get_log lg (hp s)) ++ new -> length new <= 2 ^ a * (length t + 1) ^ d.
Proof.
  intros B H. set (m := a + 4 * d + 5). set (n := 2 ^ m). pose proof (power_wins a d n m eq_refl eq_refl) as P.
  assert (Sp : at_split (init_st (tables n)) [] (tables n)).
  { split; [reflexivity|]. split; [reflexivity|]. cbn [app]. unfold slen. rewrite tables_length. assert (n <= 2 ^ 61) as Q by (apply Nat.pow_le_mono_r; lia).
    clearbody n. apply Nat2Z.inj_le in Q. rewrite Nat2Z.inj_pow in Q. change (Z.of_nat 2 ^ Z.of_nat 61)%Z with (2 ^ 61)%Z in Q. lia. }
  destruct (C134_nested_tables_exact n 0 _ _ Sp log0_ok) as (s' & new & U & _ & E & Le). specialize (H 0 _ _ _ _ _ _ Sp log0_ok U E). rewrite tables_length in H.
  replace (2 * n + 4 + 1) with (2 * n + 5) in H by lia. clearbody n. lia.
Qed.
Print Assumptions C134_polynomially_many_reads_refuted.
Example C134_case : exists s', uses (L := roomy) (monitor_rules 0 [lExp] (lua_env (L := roomy))) lua (init_st (lit "x={{{}}}")) None s' /\ pos (sc s') = 8%Z /\ length (log_entries (get_log 0 (hp s'))) = 15 /\ tables 2 = lit "x={{{}}}".
Proof. eexists. split; [run 300|]. repeat split; vm_compute; reflexivity. Qed.

(* ------------------------------------------------------------------ C135 *)

Lemma json_still {L : GoLib} : complete json_env /\ eall monitorless json_env /\ eall covered json_env /\ rall monitorless json = true /\ rall covered json = true.
Proof. destruct json_quiet as (A & B & _ & _ & C). repeat split; auto. apply eall_check. vm_compute. reflexivity. Qed.
Lemma log_move lg p s : get_log lg (hp (moveto p s)) = get_log lg (hp s).
Proof. unfold moveto, track. cbn. destruct (trk (sc s)); reflexivity. Qed.
Lemma rule_calls_each sel r : rule_calls sel r <= each r.
Proof. unfold each. destruct r; cbn; auto; destruct (sel _); auto. Qed.
(** C135.  Whatever rules a Log monitors, if Use returns, it has at most 250 new entries for every byte of the rest of the text, and 140. *)
Theorem C135_json_reads_are_linear {L : GoLib} lg ids s a b x s' : NoDup ids -> (forall i, In i ids -> i < length json_env) -> at_split s a b -> log_ok (get_log lg (hp s)) ->
  uses (monitor_rules lg ids json_env) json s x s' ->
  exists new, log_entries (get_log lg (hp s')) = log_entries (get_log lg (hp s)) ++ new /\ length new <= 250 * length b + 140.
Proof.
  intros Nd Hi Sp Ok U. destruct json_still as (Co & Me & Ce & Mr & Cr). apply uses_reads in U as (s1 & R & ->); [|destruct Sp as (_ & -> & _); apply slen_nonneg].
  destruct (log_counts json_env lg ids json s a b x s1 Co Me Ce Nd Hi Mr Cr Sp Ok R) as (new & c' & b' & E & _ & W).
  exists new. split; [destruct x; rewrite ?log_move; exact E|]. destruct (works_more _ _ each _ _ _ _ _ _ _ (rule_calls_each (chosen ids)) W) as (n & W1 & Le). apply json_cost in W1. lia.
Qed.
Print Assumptions C135_json_reads_are_linear.
(** And so for all calls of Read on all readers ([works], Cost.v, counts them along [eats]). *)
Theorem C135_json_calls_are_linear {L : GoLib} c b ok c' b' n : works json_env each (IR json) c b ok c' b' n -> n <= 250 * length b + 140.
Proof. apply json_cost. Qed.
Print Assumptions C135_json_calls_are_linear.
Theorem C135_calls_are_counted {L : GoLib} s a b x s' : at_split s a b -> uses json_env json s x s' ->
  exists c' b' n, works json_env each (IR json) (h_cells (hp s)) b (okx x) c' b' n /\ n <= 250 * length b + 140.
Proof.
  intros Sp U. destruct json_still as (Co & Me & Ce & Mr & Cr). apply uses_reads in U as (s1 & R & ->); [|destruct Sp as (_ & -> & _); apply slen_nonneg].
  destruct (reads_eats json_env json _ _ _ _ _ _ Ce Cr (stands_split _ _ _ Sp) R) as (c' & b' & _ & D). destruct (eats_works _ each _ _ _ _ _ _ D) as (n & W).
  exists c', b', n. split; auto. now apply json_cost in W.
Qed.
Print Assumptions C135_calls_are_counted.
Example C135_case : exists s', uses (L := roomy) (monitor_rules 0 [jElement; jValue; jNumber; jNull] (json_env (L := roomy))) json (init_st (lit "[[1],2]")) None s' /\
  length (log_entries (get_log 0 (hp s'))) = 10 /\ 10 <= 250 * 7 + 140 /\ log_ok (get_log 0 (hp (init_st (lit "[[1],2]")))) /\ NoDup [jElement; jValue; jNumber; jNull].
Proof.
  eexists. split; [run 120|]. split; [vm_compute; reflexivity|]. split; [lia|]. split; [exact log0_ok|]. unfold jElement, jValue, jNumber, jNull. repeat constructor; cbn; lia.
Qed.
