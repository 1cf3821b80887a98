(** ShiftRev.v - the same text standing before two different rests: backward Scanner methods do the same. *)
From Verif Require Export ReaderTrans ScannerRevFacts.
From Coq Require Import Lia ZifyBool.

Section Rev.
Context {L : GoLib} (a b b' : bytes).
Definition backs (s t : st) : Prop := full (sc s) = a ++ b /\ full (sc t) = a ++ b' /\ slen (a ++ b) < 2 ^ 63 /\ slen (a ++ b') < 2 ^ 63 /\
  pos (sc s) = pos (sc t) /\ 0 <= pos (sc s) <= slen a.
Definition same {A} (m : M A) : Prop := forall s t, backs s t ->
  match m s, m t with
  | Ok (u, s'), Ok (v, t') => u = v /\ backs s' t'
  | Panic, Panic => True
  | Fuel, Fuel => True
  | _, _ => False
  end.
Lemma same_ret {A} (u : A) : same (ret u). Proof. intros s t T. split; auto. Qed.
Lemma same_panic {A} : same (@panic A). Proof. intros s t T. exact I. Qed.
Lemma same_fuel {A} : same (@out_of_fuel A). Proof. intros s t T. exact I. Qed.
Lemma same_bind {A B} (m : M A) (f : A -> M B) : same m -> (forall u, same (f u)) -> same (bind m f).
Proof.
  intros H1 H2 s t T. specialize (H1 s t T). unfold bind. destruct (m s) as [[u s']| |], (m t) as [[v t']| |]; try tauto.
  destruct H1 as [<- T']. apply (H2 u s' t' T').
Qed.
Lemma backs_moveto p s t : 0 <= p <= slen a -> backs s t -> backs (moveto p s) (moveto p t).
Proof. intros P (R1 & R2 & R3 & R4 & R5 & R6). repeat (split; [assumption|]). cbn. split; [reflexivity|exact P]. Qed.
Lemma same_head {A} (f : bytes -> M A) : (forall u, slen u < 2 ^ 63 -> same (f u)) -> same (bind s_head f).
Proof.
  intros H s t T. pose proof T as (R1 & R2 & R3 & R4 & R5 & R6). unfold bind, s_head. rewrite <- R5, R1, R2.
  rewrite !slen_app in *. pose proof (slen_nonneg b). pose proof (slen_nonneg b'). replace (_ && _) with true by lia. replace (_ && _) with true by lia.
  assert (Q : forall c, firstn (Z.to_nat (pos (sc s))) (a ++ c) = firstn (Z.to_nat (pos (sc s))) a).
  { intros c. rewrite firstn_app. replace (Z.to_nat (pos (sc s)) - length a)%nat with 0%nat by (unfold slen in *; lia). cbn [firstn]. apply app_nil_r. }
  rewrite !Q. apply H; [|exact T]. unfold slen in *. rewrite firstn_length. lia.
Qed.
Lemma same_move n : - 2 ^ 63 <= n <= 0 -> same (move n).
Proof.
  intros N s t T. pose proof T as (R1 & R2 & R3 & R4 & R5 & R6). unfold move. rewrite <- R5, R1, R2, !slen_app in *.
  pose proof (slen_nonneg b). pose proof (slen_nonneg b'). pose proof (slen_nonneg a). rewrite wrap64_id by lia.
  replace (slen a + slen b <? pos (sc s) + n) with false by lia. replace (slen a + slen b' <? pos (sc s) + n) with false by lia.
  rewrite !orb_false_r. destruct (pos (sc s) + n <? 0) eqn:Q; [split; auto|]. split; [reflexivity|]. apply backs_moveto; [lia|exact T].
Qed.
Lemma same_mark {A} (f : Z -> M A) : (forall p, 0 <= p <= slen a -> same (f p)) -> same (bind mark f).
Proof. intros H s t T. pose proof T as (R1 & R2 & R3 & R4 & R5 & R6). unfold bind, mark, gets. rewrite <- R5. apply H; assumption. Qed.
Lemma same_marker p : 0 <= p <= slen a -> same (to_marker p).
Proof. intros P s t T. unfold to_marker. replace (p <? 0) with false by lia. cbn [andb]. split; [reflexivity|]. apply backs_moveto; assumption. Qed.
Lemma same_at_start : same at_start.
Proof. intros s t T. pose proof T as (R1 & R2 & R3 & R4 & R5 & R6). unfold at_start, gets. rewrite R5. split; [reflexivity|exact T]. Qed.

(* -------------------------------------------------- texts of the iterator *)

Lemma rev_iter_le n : forall str, Forall (fun p => slen (fst p) <= slen str) (fst (rev_iter n str)) /\ slen (snd (rev_iter n str)) <= slen str.
Proof.
  induction n as [|n IH]; intros str; cbn [rev_iter]; destruct (decode_last_rune str) as [v vi]; destruct (v =? RuneError); cbn [fst snd]; try (split; [constructor|lia]).
  destruct (IH (firstn (length str - vi) str)) as [H1 H2]. destruct (rev_iter n _) as [items final]. cbn [fst snd] in *.
  assert (Q : slen (firstn (length str - vi) str) <= slen str) by (unfold slen; rewrite firstn_length; lia).
  split; [|lia]. constructor; [cbn [fst]; lia|]. eapply Forall_impl; [|exact H1]. cbn beta. intros p. lia.
Qed.
Lemma find_rev_le p init l : Forall (fun q => slen (fst q) <= init) l -> forall d, find_rev p init l = Some d -> 0 <= d <= init.
Proof.
  induction 1 as [|[u v] l P F IH]; intros d H; [discriminate|]. cbn [find_rev] in H. destruct (p u v); [|apply IH, H].
  injection H as <-. cbn [fst] in P. pose proof (slen_nonneg u). lia.
Qed.
Lemma find_rev_head p u d : find_rev p (slen u) (fst (rev_items u)) = Some d -> 0 <= d <= slen u.
Proof. apply find_rev_le. apply rev_iter_le. Qed.
Lemma decode_last_le u : (snd (decode_last_rune u) <= length u)%nat.
Proof.
  destruct u as [|x u]; [vm_compute; auto|]. destruct (decode_last_cases (x :: u) ltac:(discriminate)) as [(r & h & _ & E & D)|[D _] ]; rewrite D; cbn [snd].
  - rewrite E, app_length. lia.
  - cbn. lia.
Qed.
Lemma last_small u v i : decode_last_rune u = (v, i) -> (i <= length u)%nat.
Proof. intros H. pose proof (decode_last_le u) as Q. rewrite H in Q. exact Q. Qed.

Ltac ms := repeat first
  [ apply same_head; intros ? ?
  | apply same_ret
  | apply same_panic
  | apply same_move; first
      [ match goal with H : find_rev _ _ _ = Some _ |- _ => pose proof (find_rev_head _ _ _ H); lia end
      | match goal with H : decode_last_rune _ = _ |- _ => pose proof (last_small _ _ _ H); unfold slen in *; lia end ]
  | match goal with |- same (if ?c then _ else _) => destruct c eqn:? end
  | match goal with |- same (match ?c with _ => _ end) => destruct c eqn:? end ].
Lemma suffix_small u str : has_suffix u str = true -> slen str <= slen u.
Proof. intros H. apply has_suffix_iff in H as [c ->]. rewrite slen_app. pose proof (slen_nonneg c). lia. Qed.
Lemma same_if str : same (rev_if str).
Proof.
  unfold rev_if. apply same_head. intros u B. destruct (has_suffix u str) eqn:Q; [|ms]. apply suffix_small in Q. apply same_move.
  pose proof (slen_nonneg str). lia.
Qed.
Lemma same_if_any l : same (rev_if_any l).
Proof. induction l as [|y l IH]; cbn [rev_if_any]; [ms|]. apply same_bind; [apply same_if|]. intros []; [ms|exact IH]. Qed.
Lemma same_to str : same (rev_to str). Proof. unfold rev_to. ms. Qed.
Lemma same_if_fold str : same (rev_if_fold str).
Proof.
  unfold rev_if_fold. apply same_head. intros u B. destruct (slen u <? slen str) eqn:Q; [ms|]. destruct (equal_fold _ _); [|ms]. apply same_move.
  pose proof (slen_nonneg str). lia.
Qed.
Lemma same_to_fold str : same (rev_to_fold str).
Proof.
  unfold rev_to_fold. apply same_head. intros u B. pose proof (proj1 (rev_iter_le (length u) u)) as F. unfold rev_items.
  induction F as [|[y v] l P F IH]; cbn [rev_to_fold_loop]; [ms|]. destruct (_ <? _); [ms|]. destruct (equal_fold _ _); [|exact IH].
  apply same_move. cbn [fst] in P. pose proof (slen_nonneg y). lia.
Qed.
Lemma same_if_rune r : same (rev_if_rune r). Proof. unfold rev_if_rune. ms. Qed.
Lemma same_to_rune r : same (rev_to_rune r). Proof. unfold rev_to_rune. ms. Qed.
Lemma same_while p : same (rev_while p).
Proof.
  unfold rev_while. apply same_head. intros u B. destruct (slen u =? 0); [ms|]. destruct (find_rev _ _ _) eqn:Q; [ms|]. apply same_move.
  pose proof (proj2 (rev_iter_le (length u) u)) as F. unfold rev_items. pose proof (slen_nonneg (snd (rev_iter (length u) u))). lia.
Qed.
Lemma same_if_any_rune str : same (rev_if_any_rune str). Proof. unfold rev_if_any_rune. ms. Qed.
Lemma same_to_any_rune str : same (rev_to_any_rune str). Proof. unfold rev_to_any_rune. ms. Qed.
Lemma same_if_between mn mx : same (rev_if_between mn mx). Proof. unfold rev_if_between. ms. Qed.
Lemma same_to_between mn mx : same (rev_to_between mn mx). Proof. unfold rev_to_between. ms. Qed.
Lemma same_if_match f : same (rev_if_match f). Proof. unfold rev_if_match. ms. Qed.
Lemma same_to_match f : same (rev_to_match f). Proof. unfold rev_to_match. ms. Qed.
Lemma same_start : same to_start.
Proof. apply same_marker. pose proof (slen_nonneg a). lia. Qed.
Lemma same_line_col tab : same (line_col tab).
Proof. unfold line_col. ms. Qed.
Lemma same_scope m : same m -> same (scope m).
Proof. intros H. unfold scope. apply same_mark. intros p P. apply same_bind; [exact H|]. intros []; [ms|]. apply same_bind; [apply same_marker, P|]. intros. ms. Qed.
Lemma same_while_f n m : same m -> same (while_f n m).
Proof.
  intros H. unfold while_f. apply same_mark. intros p P. apply same_bind.
  - induction n as [|n IH]; cbn [while_loop]; [apply same_fuel|]. apply same_bind; [exact H|]. intros []; [exact IH|ms].
  - intros _. apply same_mark. intros q Q. ms.
Qed.
Lemma runes_rev_le init n l : Forall (fun q => slen (fst q) <= init /\ 0 <= rune_len (snd q) <= slen (fst q)) l -> forall c d, move_runes_rev init n l c = Some d -> - init <= d <= 0.
Proof.
  induction 1 as [|[u v] l P F IH]; intros c d H; [discriminate|]. cbn [move_runes_rev] in H. destruct (n =? c - 1); [|eapply IH; exact H].
  injection H as <-. cbn [fst snd] in P. lia.
Qed.
Lemma rev_iter_len n : forall str, Forall (fun q => 0 <= rune_len (snd q) <= slen (fst q)) (fst (rev_iter n str)).
Proof.
  induction n as [|n IH]; intros str; cbn [rev_iter]; destruct (decode_last_rune str) as [v vi] eqn:D; destruct (v =? RuneError) eqn:Q; cbn [fst]; try constructor.
  specialize (IH (firstn (length str - vi) str)). destruct (rev_iter n _) as [items final]. cbn [fst] in *. constructor; [|exact IH]. cbn [fst snd].
  destruct str as [|x u]; [vm_compute in D; injection D as <- <-; discriminate Q|].
  destruct (decode_last_cases (x :: u) ltac:(discriminate)) as [(r & h & R & E & D')|[D' _] ]; rewrite D' in D; injection D as <- <-; [|rewrite Z.eqb_refl in Q; discriminate].
  rewrite E, slen_app, rune_len_utf8 by exact R. pose proof (slen_nonneg h). pose proof (slen_nonneg (utf8 r)). lia.
Qed.
Lemma same_move_runes n : n <= 0 -> same (move_runes n).
Proof.
  intros N. unfold move_runes. replace (0 <? n) with false by lia. destruct (n <? 0); [|ms]. apply same_head. intros u B.
  destruct (move_runes_rev _ _ _ _) as [d|] eqn:Q; [|ms]. apply runes_rev_le in Q.
  - apply same_move. lia.
  - pose proof (proj1 (rev_iter_le (length u) u)) as F1. pose proof (rev_iter_len (length u) u) as F2. unfold rev_items.
    rewrite Forall_forall in *. intros q K. split; auto.
Qed.
End Rev.
