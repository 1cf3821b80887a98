(** PropLogCalls.v - C169: the Levels of the entries of a Log. *)
From Verif Require Import LogCalls ExKit.
From Coq Require Import Lia ZifyBool.
From Verif Require Import ReaderSteps LogFacts LogCalls.

(** C169.  The entries that a Read of any reader adds to a Log list, in preorder, a forest whose roots are one level below the level
    that the Log had: every entry is followed by the entries of the Reads inside it, at the next level. *)
Theorem C169_reads_add_a_forest {L : GoLib} e lg r s x s' : log_ok (get_log lg (hp s)) -> reads e r s x s' ->
  exists new, log_entries (get_log lg (hp s')) = log_entries (get_log lg (hp s)) ++ new /\ forest (l_level (get_log lg (hp s))) new.
Proof. intros Ok H. destruct (forest_read e lg r s x s' H Ok) as (_ & F). exact F. Qed.
Print Assumptions C169_reads_add_a_forest.

(** Without trees: the first entry is at the level of the Log plus one, none is above it, and the level never rises by more than one. *)
Theorem C169_levels {L : GoLib} e lg r s x s' : log_ok (get_log lg (hp s)) -> reads e r s x s' ->
  let v := l_level (get_log lg (hp s)) in
  exists new, log_entries (get_log lg (hp s')) = log_entries (get_log lg (hp s)) ++ new /\
    (forall en t, new = en :: t -> e_level en = v + 1) /\ (forall en, In en new -> v + 1 <= e_level en) /\
    (forall a en en' b, new = a ++ en :: en' :: b -> e_level en' <= e_level en + 1).
Proof.
  intros Ok H. cbv zeta. destruct (C169_reads_add_a_forest e lg r s x s' Ok H) as (new & E & F). exists new. split; [exact E|].
  split; [apply forest_first, F|]. split; [apply forest_low, F|]. exact (forest_next _ _ F).
Qed.
Print Assumptions C169_levels.

(** String, and with it Print and PrintWithPreview, fails for no entry: the Log may have been used before, as long as its level is not negative. *)
Theorem C169_reads_can_be_printed {L : GoLib} e lg r s x s' : log_ok (get_log lg (hp s)) -> reads e r s x s' ->
  0 <= l_level (get_log lg (hp s)) -> (forall en, In en (log_entries (get_log lg (hp s))) -> entry_text en = Ok (entry_string en)) ->
  0 <= l_level (get_log lg (hp s')) /\ forall en, In en (log_entries (get_log lg (hp s'))) -> entry_text en = Ok (entry_string en).
Proof.
  intros Ok H V Old. destruct (forest_read e lg r s x s' H Ok) as ((_ & Lv & _) & new & E & F). unfold lgs in *. split; [lia|].
  rewrite E. intros en I. apply in_app_iff in I as [I|I]; [auto|]. apply (forest_low _ _ F) in I. unfold entry_text.
  destruct (Z.ltb_spec (e_level en) 0); [lia|reflexivity].
Qed.
Print Assumptions C169_reads_can_be_printed.

(** Calls of Enter, Exit and Reset from outside, in any order and with any entries: names, positions and levels of the entries are those
    of the Enters since the last Reset, in order; Exit changes none of them, whatever entry it is given. *)
Theorem C169_calls {L : GoLib} cs l : log_ok l ->
  log_ok (do_calls l cs) /\ l_level (do_calls l cs) = level_after (l_level l) cs /\
  map (fun en => (e_info en, e_enter en, e_level en)) (log_entries (do_calls l cs))
  = keys_after (l_level l) (map (fun en => (e_info en, e_enter en, e_level en)) (log_entries l)) cs.
Proof. intros H. split; [apply calls_ok, H|]. split; [apply calls_level|]. exact (calls_keys cs l H). Qed.
Print Assumptions C169_calls.

(** If at no time there have been more Exits than Enters since the start and since every Reset, then all entries can be printed. *)
Theorem C169_calls_can_be_printed {L : GoLib} cs : (forall a b, cs = a ++ b -> 0 <= level_after 0 a) ->
  forall en, In en (log_entries (do_calls log0 cs)) -> 1 <= e_level en /\ entry_text en = Ok (entry_string en).
Proof.
  intros B en I. apply (in_map key) in I. rewrite (calls_keys cs log0 log0_ok) in I. apply keys_in in I as [[]|(i & p & a & b & E & K)].
  injection K as _ _ K. specialize (B a _ E). cbn [l_level log0] in K. split; [lia|]. unfold entry_text. destruct (Z.ltb_spec (e_level en) 0); [lia|reflexivity].
Qed.
Print Assumptions C169_calls_can_be_printed.

(** Exactly: String fails for the entry of an Enter if and only if there were at least two more Exits than Enters before it. *)
Theorem C169_entered {L : GoLib} l cs i p : log_ok l -> exists en,
  log_entries (do_calls l (cs ++ [CEnter i p])) = log_entries (do_calls l cs) ++ [en] /\
  (entry_text en = Panic <-> level_after (l_level l) cs < -1) /\ (-1 <= level_after (l_level l) cs -> entry_text en = Ok (entry_string en)).
Proof.
  intros H. unfold do_calls at 1. rewrite fold_left_app. fold (do_calls l cs). cbn [fold_left do_call].
  destruct (enter_spec i p _ (calls_ok cs l H)) as (_ & E & _). rewrite E. eexists. split; [reflexivity|].
  unfold entry_text, fresh_entry. cbn [e_level]. rewrite calls_level. destruct (Z.ltb_spec (level_after (l_level l) cs + 1) 0); split; try split; intros; try reflexivity; try lia; discriminate.
Qed.
Print Assumptions C169_entered.
(** The condition is needed: after Exits without Enters the next Enter makes an entry whose String fails. *)
Theorem C169_condition {L : GoLib} : exists cs en, In en (log_entries (do_calls log0 cs)) /\ entry_text en = Panic.
Proof.
  set (cs := [CEnter [] 0; CExit (0%nat, 0%nat) 0 None; CExit (0%nat, 0%nat) 0 None; CExit (0%nat, 0%nat) 0 None; CEnter [] 0]).
  pose proof (calls_keys cs log0 log0_ok) as K. assert (I : In (@nil byte, 0, -1) (map key (log_entries (do_calls log0 cs)))) by (rewrite K; cbn; auto).
  apply in_map_iff in I as (en & E & I). exists cs, en. split; [exact I|]. injection E as _ _ E. unfold entry_text. rewrite E. reflexivity.
Qed.
Print Assumptions C169_condition.

(** A monitored pair of monitored readers, read twice: two trees with two children each; and calls that fit. *)
Definition pair : reader := RMonitor (lit "p") 0 (RSeq [RMonitor (lit "a") 0 (RLit (lit "a")); RMonitor (lit "b") 0 (RLit (lit "b"))]).
Definition doubling : GoLib := {| lib_fold := fun a b => a =? b; lib_print := fun _ => true; lib_grow := fun c => (2 * c)%nat |}.
Example ex169 : exists s', reads (L := doubling) [] (RSeq [pair; pair]) (mk (lit "abab") 0) None s' /\ log_ok (get_log 0 (hp (mk (lit "abab") 0))) /\ map e_level (log_entries (get_log 0 (hp s'))) = [1; 2; 2; 1; 2; 2].
Proof. eexists. split; [exists 6%nat; vm_compute; reflexivity|]. split; [exact log0_ok|vm_compute; reflexivity]. Qed.
Definition fitting : list lcall := [CEnter (lit "a") 0; CEnter (lit "b") 1; CExit (0%nat, 1%nat) 3 None; CEnter (lit "c") 4; CExit (0%nat, 0%nat) 3 None; CExit (5%nat, 0%nat) 3 None].
Example ex169_calls {L : GoLib} : (forall a b, fitting = a ++ b -> 0 <= level_after 0 a) /\ map e_level (log_entries (do_calls log0 fitting)) = [1; 2; 2].
Proof.
  split.
  - unfold fitting. intros a b E. do 6 (destruct a as [|? a]; [cbn; lia|injection E as <- E]). destruct a; [cbn; lia|discriminate].
  - change e_level with (fun en => snd (key en)). rewrite <- (map_map key snd). rewrite (calls_keys fitting log0 log0_ok). reflexivity.
Qed.
