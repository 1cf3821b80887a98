(** PropCfg.v - C112: what a grammar reads is in its context-free language. *)
From Verif Require Import CfgFacts UseFacts ExKit PropTrack LuaSyntax.
From Coq Require Import Lia.

(* ------------------------------------------------------------------ C112 *)

(** C112.  What a reader reads is a text of its language: the context-free language of the rules, with choices in any
    order (SpecCfg.v).  No alternative, option or repetition may be left in the middle of its text when it fails
    (steadyb): Times is the only reader that does so. *)
Theorem C112_reads_its_language {L : GoLib} e r s a b s' : at_split s a b -> eall covered e -> rall covered r = true ->
  restores e -> eall steadyb e -> rall steadyb r = true -> reads e r s None s' ->
  exists w rest, b = w ++ rest /\ at_split s' (a ++ w) rest /\ language e r w.
Proof.
  intros H Ce Cr Re Se Sr R. destruct (reads_eats e r _ _ _ _ _ _ Ce Cr (stands_split _ _ _ H) R) as (c' & rest & S' & D).
  destruct (eats_suffix _ _ _ _ _ _ _ D) as [w ->]. exists w, rest. split; auto. split.
  { eapply stands_at; [|exact S']. rewrite app_assoc. auto. }
  intros I Cl. apply (glang_lang (fun _ _ => True)). refine (eats_lang (fun _ _ => True) I e Re (fun _ _ => True) steady _ _ _ _ _ _ _ (IR r) _ _ true _ _ D eq_refl _ _ _ w eq_refl); auto.
  - intros i x E. apply steady_check. exact (Se i x E).
  - intros i x c y d z u E _ _ _ G. apply (Cl i x); auto. apply (glang_lang (fun _ _ => True)). exact G.
  - exact Logic.I.
  - apply steady_check. exact Sr.
  - split; exact Logic.I.
Qed.
Print Assumptions C112_reads_its_language.
(** Use as well. *)
Theorem C112_uses_its_language {L : GoLib} e r s a b s' : at_split s a b -> eall covered e -> rall covered r = true ->
  restores e -> eall steadyb e -> rall steadyb r = true -> uses e r s None s' ->
  exists w rest, b = w ++ rest /\ at_split s' (a ++ w) rest /\ language e r w.
Proof.
  intros H Ce Cr Re Se Sr U. apply uses_reads in U as (s1 & R & ->); [|destruct H as (_ & -> & _); apply slen_nonneg].
  eapply C112_reads_its_language; eauto.
Qed.
Print Assumptions C112_uses_its_language.

(** Cases: a rule that calls itself reads balanced brackets and x, [A = brackets around A, or x];
    Opt(Times(2, x)) leaves x behind when it fails, and x is not in its language. *)
Definition nest : env := [mkRule (lit "A") (Some (RAny [RSeq [RRune 0x28; RRule 0; RRune 0x29]; RRune 0x78]))].
Example C112_here {L : GoLib} : exists s', reads nest (RRule 0) (init_st (lit "((x))y")) None s' /\ at_split s' (lit "((x))") (lit "y") /\ language nest (RRule 0) (lit "((x))").
Proof.
  assert (R : exists s', reads nest (RRule 0) (init_st (lit "((x))y")) None s' /\ pos (sc s') = 5) by (eexists; split; [run 100%nat|reflexivity]). destruct R as (s' & R & P). exists s'. split; auto.
  destruct (C112_reads_its_language nest (RRule 0) (init_st (lit "((x))y")) [] (lit "((x))y") s') as (w & rest & E & S & Lw); auto.
  - repeat split.
  - apply eall_check. vm_compute. reflexivity.
  - apply restores_check. vm_compute. reflexivity.
  - apply eall_check. vm_compute. reflexivity.
  - assert (Lw5 : length w = 5%nat) by (destruct S as (_ & S & _); cbn [app] in S; rewrite P in S; unfold slen in S; lia).
    do 5 (destruct w as [|? w]; [discriminate|]). destruct w; [|discriminate]. injection E as <- <- <- <- <- <-. auto.
Qed.
Definition twice : reader := ROpt (RTimes 2 (RRune 0x78)).
Example C112_steadiness_is_needed {L : GoLib} : (exists s', reads [] twice (init_st (lit "xy")) None s' /\ pos (sc s') = 1) /\ ~ language [] twice (lit "x") /\ rall steadyb twice = false.
Proof.
  split; [eexists; split; [run 50%nat|reflexivity]|]. split; [|reflexivity]. intros H. specialize (H (fun _ _ => False)). destruct H as [H|H]; [|discriminate|].
  - intros [|i] r w E; discriminate.
  - destruct H as (u & v & E & U & v' & z & -> & V & ->). rewrite app_nil_r in E.
    apply (rune_lang (fun _ _ => True) (fun _ _ => False) 0x78 x78) in U; [|reflexivity|lia]. apply (rune_lang (fun _ _ => True) (fun _ _ => False) 0x78 x78) in V; [|reflexivity|lia].
    subst. discriminate.
Qed.
