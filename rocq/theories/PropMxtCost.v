(** PropMxtCost.v - C139: how many Reads MXT() takes. *)
From Verif Require Import PropLog MxtCostLow.
From Verif Require Import UseFacts ExKit LogFacts PegBytes PegFacts TrackFacts PropTrack PropMxtText PropCost.
From Coq Require Import Lia.

Local Open Scope nat_scope.
(* ------------------------------------------------------------------ C139 *)

Lemma mxt_still {L : GoLib} : complete mxt_env /\ eall monitorless mxt_env /\ eall covered mxt_env /\ rall monitorless mxt = true /\ rall covered mxt = true.
Proof. destruct mxt_quiet as (A & B & _ & _ & C). repeat split; auto. apply eall_check. vm_compute. reflexivity. Qed.
(** C139.  Whatever rules a Log monitors, if Use returns, it has at most 600 new entries for every pair of bytes of the rest of the text (and one byte more). *)
Theorem C139_mxt_reads_are_quadratic {L : GoLib} lg ids s a b x s' : NoDup ids -> (forall i, In i ids -> i < length mxt_env) -> at_split s a b -> log_ok (get_log lg (hp s)) ->
  uses (monitor_rules lg ids mxt_env) mxt s x s' ->
  exists new, log_entries (get_log lg (hp s')) = log_entries (get_log lg (hp s)) ++ new /\ length new <= 600 * (length b + 1) * (length b + 1).
Proof.
  intros Nd Hi Sp Ok U. destruct mxt_still as (Co & Me & Ce & Mr & Cr). apply uses_reads in U as (s1 & R & ->); [|destruct Sp as (_ & -> & _); apply slen_nonneg].
  destruct (log_counts mxt_env lg ids mxt s a b x s1 Co Me Ce Nd Hi Mr Cr Sp Ok R) as (new & c' & b' & E & _ & W).
  exists new. split; [destruct x; rewrite ?log_move; exact E|]. destruct (works_more _ _ each _ _ _ _ _ _ _ (rule_calls_each (chosen ids)) W) as (n & W1 & Le). apply mxt_cost in W1. lia.
Qed.
Print Assumptions C139_mxt_reads_are_quadratic.
(** And so for all calls of Read on all readers. *)
Theorem C139_mxt_calls_are_quadratic {L : GoLib} s a b x s' : at_split s a b -> uses mxt_env mxt s x s' ->
  exists c' b' n, works mxt_env each (IR mxt) (h_cells (hp s)) b (okx x) c' b' n /\ n <= 600 * (length b + 1) * (length b + 1).
Proof.
  intros Sp U. destruct mxt_still as (Co & Me & Ce & Mr & Cr). apply uses_reads in U as (s1 & R & ->); [|destruct Sp as (_ & -> & _); apply slen_nonneg].
  destruct (reads_eats mxt_env mxt _ _ _ _ _ _ Ce Cr (stands_split _ _ _ Sp) R) as (c' & b' & _ & D). destruct (eats_works _ each _ _ _ _ _ _ D) as (n & W).
  exists c', b', n. split; auto. now apply mxt_cost in W.
Qed.
Print Assumptions C139_mxt_calls_are_quadratic.

Lemma far_length n : length (far_arrow n) = n + 9.
Proof. unfold far_arrow. rewrite !app_length, repeat_length. cbn. lia. Qed.
Lemma word_calls_chosen r : word_calls r = rule_calls (chosen [mWordChar]) r.
Proof. destruct r; try reflexivity; do 13 (destruct i as [|i]; [reflexivity|]); reflexivity. Qed.
Lemma word_in {L : GoLib} i : In i [mWordChar] -> i < length mxt_env.
Proof. intros [<-|[]]. vm_compute. repeat constructor. Qed.
(** For the text [far_arrow n] of n + 9 bytes - one header, whose comment is a blank and [n] letters - a Log that monitors
    the rule WordChar has exactly (n + 1) (n + 2) / 2 + 6 entries more then. *)
Theorem C139_far_arrow_exact {L : GoLib} n lg s a : at_split s a (far_arrow n) -> log_ok (get_log lg (hp s)) ->
  exists s' new, uses (monitor_rules lg [mWordChar] mxt_env) mxt s None s' /\ at_split s' (a ++ far_arrow n) [] /\
    log_entries (get_log lg (hp s')) = log_entries (get_log lg (hp s)) ++ new /\ 2 * length new = (n + 1) * (n + 2) + 12.
Proof.
  intros Sp Ok. destruct mxt_still as (Co & Me & Ce & Mr & Cr). assert (P : (0 <= pos (sc s))%Z) by (destruct Sp as (_ & -> & _); apply slen_nonneg).
  assert (Nd : NoDup [mWordChar]) by (repeat constructor; auto). pose proof (in_text_split _ _ _ Sp) as I. pose proof (stands_split _ _ _ Sp) as St.
  pose proof (far_cost (h_cells (hp s)) n) as W. pose proof (works_eats _ _ _ _ _ _ _ _ _ W) as Ea.
  destruct (eats_reads _ _ _ _ _ _ _ _ _ Ea St) as (x & s2 & R & Ox & St2). assert (x = None) as -> by (destruct x; [discriminate Ox|reflexivity]).
  destruct (C100_monitored_grammar_reads_the_same mxt_env lg [mWordChar] mxt s Co Me Nd word_in Mr I) as (_ & T & _). destruct (T _ _ R) as (s1 & R1 & Sm).
  destruct (log_counts mxt_env lg [mWordChar] mxt s a (far_arrow n) None s1 Co Me Ce Nd word_in Mr Cr Sp Ok R1) as (new & c' & b' & E & Po & W1).
  destruct (works_more _ _ (rule_calls (chosen [mWordChar])) _ _ _ _ _ _ _ (fun r => Nat.eq_le_incl _ _ (word_calls_chosen r)) W) as (k & W2 & Le). pose proof (works_det _ _ _ _ _ _ _ _ _ W2 _ _ _ _ W1) as Ek. subst k.
  destruct (works_more _ _ word_calls _ _ _ _ _ _ _ (fun r => Nat.eq_le_incl _ _ (eq_sym (word_calls_chosen r))) W1) as (k & W3 & Le2). pose proof (works_det _ _ _ _ _ _ _ _ _ W _ _ _ _ W3) as Ek. subst k.
  exists s1, new. split; [apply uses_reads; auto; exists s1; auto|]. split.
  - eapply at_log; eauto. eapply split_stands; [exact St2|]. now rewrite app_nil_r.
  - split; auto. pose proof (sum_to_half (n + 1)). nia.
Qed.
Print Assumptions C139_far_arrow_exact.
(** So the number of Reads of WordChar alone is not linear in the length of the text, as far as texts reach. *)
Theorem C139_linearly_many_reads_refuted {L : GoLib} k : (Z.of_nat k <= 2 ^ 61)%Z -> ~ forall lg s u t x s' new, at_split s u t -> log_ok (get_log lg (hp s)) ->
  uses (monitor_rules lg [mWordChar] mxt_env) mxt s x s' -> log_entries (get_log lg (hp s')) = log_entries (get_log lg (hp s)) ++ new -> length new <= k * (length t + 1).
Proof.
  intros B H. set (n := 2 * k + 18).
  assert (Sp : at_split (init_st (far_arrow n)) [] (far_arrow n)).
  { split; [reflexivity|]. split; [reflexivity|]. cbn [app]. unfold slen. rewrite far_length. subst n. lia. }
  destruct (C139_far_arrow_exact n 0 _ _ Sp log0_ok) as (s' & new & U & _ & E & Le). specialize (H 0 _ _ _ _ _ _ Sp log0_ok U E). rewrite far_length in H. subst n. nia.
Qed.
Print Assumptions C139_linearly_many_reads_refuted.
Example C139_case : exists s', uses (L := roomy) (monitor_rules 0 [mWordChar] (mxt_env (L := roomy))) mxt (init_st (lit "// x aaa -->")) None s' /\ pos (sc s') = 12%Z /\
  length (log_entries (get_log 0 (hp s'))) = 16 /\ far_arrow 3 = lit "// x aaa -->" /\ log_ok (get_log 0 (hp (init_st (lit "// x aaa -->")))) /\ NoDup [mWordChar].
Proof. eexists. split; [run 300|]. split; [vm_compute; reflexivity|]. split; [vm_compute; reflexivity|]. split; [reflexivity|]. split; [exact log0_ok|]. repeat constructor; auto. Qed.
