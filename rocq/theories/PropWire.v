(** PropWire.v - C167: where a grammar keeps its rules, and which other rules there are, does not matter. *)
From Verif Require Import ReaderTrans ReaderSteps ExKit Json Mxt Lua PegBytes Wire.
From Coq Require Import Lia ZifyBool.

(* ------------------------------------------------------------------ C167 *)

(** The rules of [used] name rules of [used] only, and rule [k] of [e] is rule [f k] of [e']. *)
Definition kept_at (used : nat -> bool) (f : nat -> nat) (e e' : env) : Prop := forall k, used k = true ->
  r_name (get_rule e' (f k)) = r_name (get_rule e k) /\ r_reader (get_rule e' (f k)) = option_map (rewire f) (r_reader (get_rule e k)) /\
  forall q, r_reader (get_rule e k) = Some q -> rall (within used) q = true.

Lemma rewire_id q : rewire (fun k => k) q = q.
Proof.
  revert q. assert (G : forall rs, Forall (fun q => rewire (fun k => k) q = q) rs -> map (rewire (fun k => k)) rs = rs) by (induction 1 as [|x rs E F IH]; cbn [map]; [|rewrite E, IH]; reflexivity).
  refine (reader_ind' _ _ _ _ _ _ _ _ _ _ _ _ _ _ _ _ _ _ _ _ _ _ _ _ _ _ _ _ _ _ _ _ _ _ _ _ _); intros; cbn [rewire];
    repeat match goal with IH : rewire _ _ = _ |- _ => rewrite IH; clear IH | F : Forall _ _ |- _ => rewrite (G _ F); clear F end; reflexivity.
Qed.
Lemma kept_wired {L : GoLib} used f e e' : kept_at used f e e' -> wired used (fun k => k) f e e'.
Proof.
  intros K k U. destruct (K k U) as (N & R & C). split; [auto|]. destruct (r_reader (get_rule e k)) as [q|] eqn:E; [right|left; auto].
  exists q. rewrite rewire_id. cbn [option_map] in R. auto.
Qed.

Theorem C167_kept_elsewhere {L : GoLib} used f e e' r : kept_at used f e e' -> rall (within used) r = true ->
  what e' (rewire f r) = what e r /\ forall n s, read n e' (rewire f r) s = read n e r s.
Proof.
  intros K U. pose proof (kept_wired _ _ _ _ K) as W. split.
  - pose proof (what_wired used _ _ _ _ W r U) as H. rewrite rewire_id in H. auto.
  - intros n s. pose proof (same_wired used _ _ _ _ W r n s U) as H. rewrite rewire_id in H. auto.
Qed.
(** Only the rules that are reached count. *)
Theorem C167_other_rules {L : GoLib} used e e' r :
  (forall k, used k = true -> get_rule e' k = get_rule e k /\ forall q, r_reader (get_rule e k) = Some q -> rall (within used) q = true) ->
  rall (within used) r = true -> what e' r = what e r /\ forall n s, read n e' r s = read n e r s.
Proof.
  intros H U. rewrite <- (rewire_id r) at 1. assert (K : kept_at used (fun k => k) e e').
  { intros k I. destruct (H k I) as [E C]. rewrite E. split; [auto|]. split; [|auto]. destruct (r_reader (get_rule e k)) as [q|]; [cbn; rewrite rewire_id|]; reflexivity. }
  destruct (C167_kept_elsewhere used (fun k => k) e e' r K U) as [A B]. split; [exact A|]. intros n s. rewrite <- B, rewire_id. reflexivity.
Qed.

(** Every rule that is named by the rules and by [r] is there. *)
Definition closed (e : env) (r : reader) : bool := all_rules (within (fun k => Nat.ltb k (length e))) e && rall (within (fun k => Nat.ltb k (length e))) r.
Definition moved_by (d : nat) (r : rule) : rule := mkRule (r_name r) (option_map (rewire (Nat.add d)) (r_reader r)).
(** A grammar amid others, [d] rules before it. *)
Theorem C167_amid {L : GoLib} e r before behind : closed e r = true ->
  what (before ++ map (moved_by (length before)) e ++ behind) (rewire (Nat.add (length before)) r) = what e r /\
  forall n s, read n (before ++ map (moved_by (length before)) e ++ behind) (rewire (Nat.add (length before)) r) s = read n e r s.
Proof.
  unfold closed. rewrite andb_true_iff. intros [C U]. apply (C167_kept_elsewhere (fun k => Nat.ltb k (length e))); [|exact U]. intros k K. apply Nat.ltb_lt in K.
  unfold get_rule. rewrite app_nth2 by lia. replace (length before + k - length before)%nat with k by lia. rewrite app_nth1 by (rewrite map_length; exact K).
  rewrite (nth_indep _ rule0 (moved_by (length before) rule0)) by (rewrite map_length; exact K). rewrite map_nth. split; [reflexivity|]. split; [reflexivity|].
  intros q E. apply (eall_check _ _ C k). exact E.
Qed.
(** The rule of a Grammar may carry any name and prefix: JSON(), Lua() and MXT() are whole. *)
Lemma grammar_closed {L : GoLib} : closed json_env json = true /\ closed lua_env lua = true /\ closed mxt_env mxt = true.
Proof.
  split; [|split]; vm_compute; reflexivity.
Qed.
Theorem C167_grammars {L : GoLib} e r before behind : (e = json_env /\ r = json) \/ (e = lua_env /\ r = lua) \/ (e = mxt_env /\ r = mxt) ->
  forall n s, read n (before ++ map (moved_by (length before)) e ++ behind) (rewire (Nat.add (length before)) r) s = read n e r s.
Proof.
  destruct grammar_closed as (J & U & M). intros [ [-> ->]|[ [-> ->]|[-> ->] ] ]; apply C167_amid; assumption.
Qed.
(** Rules behind a grammar. *)
Corollary C167_behind {L : GoLib} e r more : closed e r = true -> what (e ++ more) r = what e r /\ forall n s, read n (e ++ more) r s = read n e r s.
Proof.
  unfold closed. rewrite andb_true_iff. intros [C U]. apply (C167_other_rules (fun k => Nat.ltb k (length e))); [|exact U]. intros k K. apply Nat.ltb_lt in K. split.
  - unfold get_rule. now rewrite app_nth1.
  - intros q E. apply (eall_check _ _ C k). exact E.
Qed.
(** Two grammars in one: JSON() behind the rules of MXT(). *)
Example C167_case {L : GoLib} : let e := mxt_env ++ map (moved_by (length mxt_env)) json_env in let r := rewire (Nat.add (length mxt_env)) json in
  r = RGrammar (lit "json") (lit "json parse error: ") (length (@mxt_env L) + jElement) /\
  (exists s', read 60 e r (mk (lit "[1]") 0) = Ok (None, s') /\ pos (sc s') = 3) /\ (forall n s, read n e mxt s = read n mxt_env mxt s).
Proof.
  intros e r. split; [reflexivity|]. split.
  - assert (E : forall n s, read n e r s = read n json_env json s).
    { intros n s. unfold e, r. rewrite <- (app_nil_r (map _ _)). apply C167_grammars. auto. }
    rewrite E. eexists. split; [vm_compute; reflexivity|reflexivity].
  - intros n s. apply C167_behind. apply grammar_closed.
Qed.
(** The condition: a rule that is not there panics, until it is there; and the name of a rule shows in errors. *)
Example C167_condition {L : GoLib} : closed [] (RRule 0) = false /\ read 5 [] (RRule 0) (mk (lit "a") 0) = Panic /\
  (exists s', read 5 ([] ++ [mkRule [] (Some (RLit (lit "a")))]) (RRule 0) (mk (lit "a") 0) = Ok (None, s')) /\
  read 5 [mkRule (lit "a") (Some (RLit (lit "a")))] (RNot (RRule 0)) (mk (lit "a") 0) <> read 5 [mkRule (lit "b") (Some (RLit (lit "a")))] (RNot (RRule 0)) (mk (lit "a") 0).
Proof. split; [reflexivity|]. split; [reflexivity|]. split; [eexists; vm_compute; reflexivity|]. vm_compute. discriminate. Qed.
Print Assumptions C167_kept_elsewhere.
Print Assumptions C167_other_rules.
Print Assumptions C167_amid.
Print Assumptions C167_grammars.
Print Assumptions C167_behind.
