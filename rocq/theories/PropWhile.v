(** PropWhile.v - C156: Scanner.While. *)
From Verif Require Import ScannerFacts ExKit Tests.
From Coq Require Import Lia ZifyBool.

(** [f] answers yes [k] times in a row, from [s] to [s']. *)
Inductive yes_times (f : M bool) : nat -> st -> st -> Prop :=
| yes_0 s : yes_times f 0 s s
| yes_S k s s1 s2 : f s = Ok (true, s1) -> yes_times f k s1 s2 -> yes_times f (S k) s s2.
(** ... and then no. *)
Definition until_no (f : M bool) (k : nat) (s s' : st) : Prop := exists s1, yes_times f k s s1 /\ f s1 = Ok (false, s').
(** [n] bounds the calls of [f] in the model; a While that returns does so for every large bound. *)
Definition while_returns (f : M bool) (s : st) (b : bool) (s' : st) : Prop := exists n, forall m, (n <= m)%nat -> while_f m f s = Ok (b, s').
Definition while_hangs (f : M bool) (s : st) : Prop := forall n, while_f n f s = Fuel.

Lemma loop_until f k s s' n : until_no f k s s' -> (k < n)%nat -> while_loop n f s = Ok (tt, s').
Proof.
  intros (s1 & Y & N). revert n. induction Y as [s|k s s2 s3 E Y IH]; intros n H; (destruct n as [|n]; [lia|]); cbn [while_loop]; unfold bind at 1.
  - rewrite N. reflexivity.
  - rewrite E. apply IH; auto. lia.
Qed.
Lemma loop_back f n : forall s s', while_loop n f s = Ok (tt, s') -> exists k, (k < n)%nat /\ until_no f k s s'.
Proof.
  induction n as [|n IH]; intros s s' H; cbn [while_loop] in H; [discriminate|]. unfold bind at 1 in H. destruct (f s) as [[[] s1]| |] eqn:E; try discriminate.
  - destruct (IH _ _ H) as (k & B & s2 & Y & N). exists (S k). split; [lia|]. exists s2. split; auto. econstructor; eauto.
  - injection H as <-. exists 0%nat. split; [lia|]. exists s. split; [constructor|exact E].
Qed.
Lemma while_is n f s : while_f n f s = match while_loop n f s with Ok (_, s') => Ok (pos (sc s) <? pos (sc s'), s') | Panic => Panic | Fuel => Fuel end.
Proof. unfold while_f, bind, mark, gets. destruct (while_loop n f s) as [[a s']| |]; reflexivity. Qed.

(** While calls [f] until it answers no, and tells whether the Scanner is then right of where it began. *)
Theorem C156_while f s b s' : while_returns f s b s' <-> (exists k, until_no f k s s') /\ b = (pos (sc s) <? pos (sc s')).
Proof.
  split.
  - intros [n H]. specialize (H n (le_n _)). rewrite while_is in H. destruct (while_loop n f s) as [[[] s1]| |] eqn:E; try discriminate.
    injection H as <- <-. destruct (loop_back f n s s1 E) as (k & _ & U). split; eauto.
  - intros [[k U] ->]. exists (S k). intros m H. rewrite while_is, (loop_until f k s s' m U); auto.
Qed.
Print Assumptions C156_while.
(** It does not return exactly if [f] goes on answering yes (or does not return itself). *)
Theorem C156_while_hangs f s : while_hangs f s <-> forall k, (exists s', yes_times f k s s') \/ exists j s1, (j <= k)%nat /\ yes_times f j s s1 /\ f s1 = Fuel.
Proof.
  assert (P : forall n s, while_loop n f s = Fuel <-> (exists s', yes_times f n s s') \/ exists j s1, (j < n)%nat /\ yes_times f j s s1 /\ f s1 = Fuel).
  { induction n as [|n IH]; intros q; cbn [while_loop].
    - split; auto. intros _. left. exists q. constructor.
    - unfold bind at 1. destruct (f q) as [[[] q1]| |] eqn:E.
      + rewrite IH. split; (intros [[s' Y]|(j & s1 & J & Y & F)]; [left|right]).
        * exists s'. econstructor; eauto.
        * exists (S j), s1. split; [lia|]. split; auto. econstructor; eauto.
        * exists s'. inversion Y; subst. congruence.
        * inversion Y; subst; [congruence|]. exists k, s1. split; [lia|]. split; auto. congruence.
      + split; [discriminate|]. intros [[s' Y]|(j & s1 & J & Y & F)]; inversion Y; subst; congruence.
      + split; [discriminate|]. intros [[s' Y]|(j & s1 & J & Y & F)]; inversion Y; subst; congruence.
      + split; auto. intros _. right. exists 0%nat, q. split; [lia|]. split; [constructor|auto]. }
  assert (Q : forall n, while_f n f s = Fuel <-> while_loop n f s = Fuel). { intros n. rewrite while_is. destruct (while_loop n f s) as [[] | |]; split; congruence. }
  unfold while_hangs. split; intros H k.
  - specialize (H k). rewrite Q, P in H. destruct H as [H|(j & s1 & J & H)]; auto. right. exists j, s1. split; [lia|auto].
  - rewrite Q, P. destruct (H k) as [A|(j & s1 & J & Y & F)]; auto.
    destruct (Nat.eq_dec j k) as [->|D]; [left; eauto|]. right. exists j, s1. split; [lia|auto].
Qed.
Print Assumptions C156_while_hangs.
(** If every yes of [f] moves the Scanner right inside of the text, While returns (unless [f] itself panics or hangs). *)
Theorem C156_while_returns (f : M bool) s : pos (sc s) <= slen (full (sc s)) ->
  (forall s, pos (sc s) <= slen (full (sc s)) -> exists b s', f s = Ok (b, s') /\ full (sc s') = full (sc s) /\
     (b = true -> pos (sc s) < pos (sc s') <= slen (full (sc s)))) ->
  exists b s', while_returns f s b s'.
Proof.
  intros B H. assert (E : exists k s', until_no f k s s').
  { remember (Z.to_nat (slen (full (sc s)) - pos (sc s))) as n eqn:N. revert s B N. induction n as [n IH] using lt_wf_ind. intros s B N.
    destruct (H s B) as ([] & s1 & E & F & M); [|exists 0%nat, s1; exists s; split; [constructor|auto] ].
    specialize (M eq_refl). destruct (IH (Z.to_nat (slen (full (sc s1)) - pos (sc s1)))) with (s := s1) as (k & s' & s2 & Y & X); rewrite ?F; auto; try lia.
    exists (S k), s'. exists s2. split; auto. econstructor; eauto. }
  destruct E as (k & s' & U). exists (pos (sc s) <? pos (sc s')), s'. apply C156_while. split; eauto.
Qed.
Print Assumptions C156_while_returns.
(** The use it is made for: While with If skips all copies of the string; with the empty string it does not return. *)
Theorem C156_while_if s a w k b : at_split s a (concat (repeat w k) ++ b) -> w <> [] -> (forall t, b <> w ++ t) ->
  exists s', while_returns (if_str w) s (0 <? Z.of_nat k) s' /\ at_split s' (a ++ concat (repeat w k)) b.
Proof.
  intros S W N. assert (E : exists s', yes_times (if_str w) k s s' /\ at_split s' (a ++ concat (repeat w k)) b).
  { revert s a S. induction k as [|k IH]; intros s a S.
    - exists s. split; [constructor|]. cbn in *. rewrite app_nil_r. exact S.
    - cbn [repeat concat] in S. rewrite <- app_assoc in S. pose proof (if_str_yes s a w _ S) as Y. unfold yes_by in Y.
      assert (S1 : at_split (moveto (pos (sc s) + slen w) s) (a ++ w) (concat (repeat w k) ++ b)).
      { rewrite (at_split_pos _ _ _ S), <- slen_app. eapply at_split_moveto; [exact S|]. rewrite <- app_assoc. reflexivity. }
      destruct (IH _ _ S1) as (s' & Y' & S'). exists s'. split; [econstructor; eauto|]. cbn [repeat concat]. rewrite app_assoc. exact S'. }
  destruct E as (s' & Y & S'). exists s'. split; auto. apply C156_while. split.
  - exists k, s'. split; auto. exact (if_str_no s' _ b w S' N).
  - rewrite (at_split_pos _ _ _ S), (at_split_pos _ _ _ S'), slen_app. destruct k as [|k]; [cbn; lia|]. cbn [repeat concat]. rewrite slen_app.
    pose proof (slen_nonneg (concat (repeat w k))). destruct w as [|c w]; [congruence|]. rewrite slen_cons. pose proof (slen_nonneg w). lia.
Qed.
Print Assumptions C156_while_if.
Theorem C156_while_nothing s : in_text s -> while_hangs (if_str []) s.
Proof.
  intros I. apply C156_while_hangs. intros k. left. revert s I. induction k as [|k IH]; intros s I; [exists s; constructor|].
  destruct (proj1 (at_split_in_text s) I) as (a & b & S). pose proof (if_str_yes s a [] b S) as Y. unfold yes_by in Y.
  assert (S1 : at_split (moveto (pos (sc s) + slen (A := byte) []) s) a b).
  { rewrite (at_split_pos _ _ _ S). replace (slen a + slen (A := byte) []) with (slen a) by (cbn; lia). eapply at_split_moveto; [exact S|reflexivity]. }
  destruct (IH _ (proj2 (at_split_in_text _) (ex_intro _ a (ex_intro _ b S1)))) as (s' & Y'). exists s'. econstructor; eauto.
Qed.
Print Assumptions C156_while_nothing.
Example C156_case : while_f 9 (if_str (lit "ab")) (mk (lit "xababa") 1) = Ok (true, mk (lit "xababa") 5) /\
  while_f 9 (if_str (lit "ab")) (mk (lit "xababa") 0) = Ok (false, mk (lit "xababa") 0) /\
  while_f 9 (rev_if (lit "ab")) (mk (lit "xababa") 5) = Ok (false, mk (lit "xababa") 1).
Proof. repeat split; vm_compute; reflexivity. Qed.
