(** PropMisc.v - C57 and C58: invalid readers and rune sets. *)
From Verif Require Import ReaderMisc ExKit.
From Coq Require Import Lia ZifyBool.

(* ------------------------------------------------------------------- C57 *)

(** C57.  [list_built k l r]: [r] is [k] of the readers for the arguments [l], or some
    argument is unsupported and [r] is an InvalidReader. *)
Theorem C57_constructors {L : GoLib} :
  (forall l, list_built RAny l (mk_any l)) /\ (forall l, list_built RSeq l (mk_seq l)) /\
  (forall skip l, list_built (RSkipSeq skip) l (mk_skip_seq skip l)) /\
  (forall a f k, In (f, k) [(mk_many, RMany); (mk_opt, ROpt); (mk_past, RPast); (mk_to, RTo); (mk_zom, RZom)] ->
     (exists r, as_reader a = Some r /\ f a = k r) \/ (as_reader a = None /\ exists msg, f a = RInvalid msg)).
Proof.
  split; [intros; apply built|]. split; [intros; apply built|]. split; [intros; apply built|]. intros a f k H.
  assert (G : forall n k, (exists r, as_reader a = Some r /\ mk_one n k a = k r) \/ (as_reader a = None /\ exists msg, mk_one n k a = RInvalid msg)).
  { intros n k0. unfold mk_one. destruct (as_reader a); [left|right]; eauto. }
  cbn in H. decompose [or] H; match goal with X : (_, _) = (_, _) |- _ => injection X as <- <-; apply G | X : False |- _ => destruct X end.
Qed.
Print Assumptions C57_constructors.

(** InvalidReader always fails and changes nothing. *)
Theorem C57_invalid_fails {L : GoLib} e msg s x s' : reads e (RInvalid msg) s x s' <-> s' = s /\ x = Some (EOther (lit "INVALID-READER: " ++ msg)).
Proof.
  split; [|intros [-> ->]; apply invalid_reads]. intros H. destruct (reads_fun _ _ _ _ _ _ _ H (invalid_reads e msg s)) as [-> ->]. auto.
Qed.
Print Assumptions C57_invalid_fails.

(** [exposed r]: an InvalidReader stands in [r] below Any, Seq, SkipSeq, Many, Zom, Opt, To,
    Past, At, Not, Times, Body, BodyTail, Map, Pick, Monitor, Janus; then What contains
    the marker, and HasInvalidReader finds it. *)
Theorem C57_marker_is_visible {L : GoLib} e r : exposed r ->
  (exists a b, what e r = a ++ invalid_marker ++ b) /\ has_invalid_reader (what e r) = true.
Proof. intros H. pose proof (exposed_shows e r H) as S. split; [exact S|apply shows_iff; exact S]. Qed.
Print Assumptions C57_marker_is_visible.
(** Behind a name (Named, a Rule) it is hidden. *)
Theorem C57_names_hide {L : GoLib} : exists msg n, has_invalid_reader (what [] (RNamed n (RInvalid msg))) = false /\ has_invalid_reader (what [] (RInvalid msg)) = true.
Proof. exists (lit "m"), (lit "n"). split; vm_compute; reflexivity. Qed.
Print Assumptions C57_names_hide.
Example C57_case {L : GoLib} : exists msg, mk_seq [ARune 0x61; AStr (lit "b"); ABad (lit "float64")] = RInvalid msg /\
  exposed (RMany (RAny [RLit (lit "x"); mk_seq [ABad (lit "float64")]])).
Proof. eexists. split; [reflexivity|]. apply ex_many. eapply ex_any; [right; left; reflexivity|]. apply ex_invalid. Qed.

(* ------------------------------------------------------------------- C58 *)

(** C58.  [dashed [(a,b); (c,d)] = [a; '-'; b; c; '-'; d]]: the form of range strings. *)
Theorem C58_between_any {L : GoLib} e str ls s a b l : chunked str ls -> at_split s a b -> chunked b l ->
  (forall rg, map fst ls = dashed rg -> reads_one e (between_any str) (in_ranges rg) s l) /\
  ((forall rg, map fst ls <> dashed rg) -> exists msg, between_any str = RInvalid msg).
Proof.
  intros Cs H C. unfold between_any. rewrite (runes_chunked _ _ Cs). split.
  - intros rg ->. rewrite ranges3_some.
    pose proof (set_reads_one e s a b l rg [] [] H C ck_nil ltac:(right; intros [])) as R.
    unfold reads_one in *. destruct l as [|[v c] l]; auto. destruct R as [R1 R2]. split; intros X; [apply R1; left; auto|apply R2]. intros [Y|[]]; auto.
  - intros N. destruct (ranges3 (map fst ls)) eqn:E; eauto. exfalso. apply (N l0). eapply ranges3_inv; eauto.
Qed.
Print Assumptions C58_between_any.

Theorem C58_build_between_any {L : GoLib} e rs s a b l : at_split s a b -> chunked b l ->
  (forall rg, rs = paired rg -> reads_one e (build_between_any rs) (in_ranges rg) s l) /\
  (Nat.odd (length rs) = true -> exists msg, build_between_any rs = RInvalid msg) /\
  (Nat.odd (length rs) = false -> exists rg, rs = paired rg).
Proof.
  intros H C. unfold build_between_any. split; [|split].
  - intros rg ->. rewrite ranges2_some.
    pose proof (set_reads_one e s a b l rg [] [] H C ck_nil ltac:(right; intros [])) as R.
    unfold reads_one in *. destruct l as [|[v c] l]; auto. destruct R as [R1 R2]. split; intros X; [apply R1; left; auto|apply R2]. intros [Y|[]]; auto.
  - intros O. destruct (ranges2 rs) as [rg|] eqn:E; eauto. exfalso. apply (ranges2_inv (length rs)) in E; auto. subst rs.
    assert (G : forall l : list (Z * Z), Nat.odd (length (paired l)) = false) by (induction l0 as [|[x y] l0 IH]; cbn; auto).
    rewrite G in O. discriminate.
  - intros O. destruct (ranges2 rs) as [rg|] eqn:E; [exists rg; eapply ranges2_inv; eauto|]. apply ranges2_even in E. congruence.
Qed.
Print Assumptions C58_build_between_any.

(** Set: the exact condition is that the scanner is not at the end of the text, or
    that U+FFFD is not among the singles. *)
Theorem C58_set_partial {L : GoLib} e ranges singles lr ls rg s a b l :
  chunked ranges lr -> map fst lr = dashed rg -> chunked singles ls -> at_split s a b -> chunked b l ->
  l <> [] \/ ~ In 0xFFFD (map fst ls) ->
  reads_one e (set_reader ranges singles) (in_set rg (map fst ls)) s l.
Proof.
  intros Cr E Cs H C N. unfold set_reader, between_any. rewrite (runes_chunked _ _ Cr), E, ranges3_some. eapply set_reads_one; eauto.
Qed.
Print Assumptions C58_set_partial.
Theorem C58_set_invalid {L : GoLib} ranges singles lr : chunked ranges lr -> (forall rg, map fst lr <> dashed rg) ->
  exists msg, set_reader ranges singles = RInvalid msg.
Proof.
  intros C N. unfold set_reader, between_any. rewrite (runes_chunked _ _ C). destruct (ranges3 (map fst lr)) eqn:E; eauto. exfalso. apply (N l). eapply ranges3_inv; eauto.
Qed.
Print Assumptions C58_set_invalid.
Theorem C58_set_refuted {L : GoLib} :
  ~ (forall e ranges singles lr ls rg s a b l, chunked ranges lr -> map fst lr = dashed rg -> chunked singles ls ->
     at_split s a b -> chunked b l -> reads_one e (set_reader ranges singles) (in_set rg (map fst ls)) s l).
Proof.
  intros H. specialize (H [] [] (utf8 0xFFFD) [] [(0xFFFD, utf8 0xFFFD)] [] (mk [] 0) [] [] [] ck_nil eq_refl).
  destruct H as (x & s' & R & _); [chunks_here|split_here|constructor|].
  assert (R' : reads [] (set_reader [] (utf8 0xFFFD)) (mk [] 0) None (mk [] 0)) by (exists 2%nat; vm_compute; reflexivity).
  destruct (reads_fun _ _ _ _ _ _ _ R R') as [X _]. discriminate.
Qed.
Print Assumptions C58_set_refuted.
Example C58_case {L : GoLib} :
  runes (lit "a-zA-Z") = dashed [(0x61, 0x7A); (0x41, 0x5A)] /\
  reads [] (between_any (lit "a-zA-Z")) (mk (lit "1Q") 1) None (mk (lit "1Q") 2) /\
  (exists x, reads [] (between_any (lit "a-zA-Z")) (mk (lit "1Q") 0) (Some x) (mk (lit "1Q") 0)) /\
  reads [] (set_reader (lit "0-9") (lit "_$")) (mk (lit "$") 0) None (mk (lit "$") 1).
Proof. split; [reflexivity|]. split; [exists 2%nat; vm_compute; reflexivity|]. split; [eexists; exists 2%nat; vm_compute; reflexivity|exists 2%nat; vm_compute; reflexivity]. Qed.
