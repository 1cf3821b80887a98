(** PropLine.v - C168: LineCol tells positions apart and orders them. *)
From Verif Require Import ReadFacts PropScanner ExKit.
From Coq Require Import Lia ZifyBool.

(* ------------------------------------------------------------------ C168 *)

Lemma last_line a : exists p l, a = p ++ l /\ ~ In x0a l /\ (p = [] \/ exists q, p = q ++ [x0a]).
Proof.
  induction a as [|x a (p & l & -> & N & P)] using rev_ind; [exists [], []; auto|]. destruct (Byte.byte_eq_dec x x0a) as [->|D].
  - exists ((p ++ l) ++ [x0a]), []. rewrite app_nil_r. split; [reflexivity|]. split; [auto|]. right. eauto.
  - exists p, (l ++ [x]). rewrite app_assoc. split; [reflexivity|]. split; [|auto]. rewrite in_app_iff. intros [I|[I|[] ] ]; auto.
Qed.
Lemma occ_app c a b : occ c (a ++ b) = occ c a + occ c b.
Proof. unfold occ. rewrite count_occ_app. lia. Qed.
Lemma occ_range c a : 0 <= occ c a <= slen a.
Proof. unfold occ, slen. pose proof (count_occ_bound Byte.byte_eq_dec c a). lia. Qed.
Lemma occ_in c a : In c a -> 1 <= occ c a.
Proof. intros I. apply (count_occ_In Byte.byte_eq_dec) in I. unfold occ. lia. Qed.
Lemma occ_out c a : ~ In c a -> occ c a = 0.
Proof. intros I. apply (count_occ_not_In Byte.byte_eq_dec) in I. unfold occ. lia. Qed.

(** The width of a tab is positive and no line of the text is too wide for an int. *)
Definition fits (tab : Z) (t : bytes) : Prop := 1 <= tab /\ tab * (slen t + 1) < 2 ^ 63.
Lemma line_col_here tab s a b : at_split s a b -> fits tab (a ++ b) -> exists p l, a = p ++ l /\ ~ In x0a l /\ (p = [] \/ exists q, p = q ++ [x0a]) /\
  line_col tab s = Ok ((1 + occ x0a a, 1 + (slen l - occ x09 l) + occ x09 l * tab), s).
Proof.
  intros H [T F]. destruct (last_line a) as (p & l & E & N & P). exists p, l. split; [exact E|]. split; [exact N|]. split; [exact P|].
  apply (C17_column_that_fits s a b p l tab H E N P). pose proof (occ_range x09 l). rewrite E, !slen_app in F. pose proof (slen_nonneg p). pose proof (slen_nonneg b). nia.
Qed.
(** What stands between two positions of a text: its newlines tell the lines apart, otherwise its bytes the columns. *)
Theorem C168_between tab s t a d b : at_split s a (d ++ b) -> at_split t (a ++ d) b -> fits tab (a ++ d ++ b) ->
  exists l c l' c', line_col tab s = Ok ((l, c), s) /\ line_col tab t = Ok ((l', c'), t) /\ 1 <= l /\ 1 <= c /\ 1 <= c' /\
  l' = l + occ x0a d /\ (~ In x0a d -> c' = c + slen d + (tab - 1) * occ x09 d).
Proof.
  intros Hs Ht F. destruct (line_col_here tab s a (d ++ b) Hs F) as (p & x & E & N & P & ->).
  destruct (line_col_here tab t (a ++ d) b Ht) as (p' & x' & E' & N' & P' & R'); [rewrite <- app_assoc; exact F|]. rewrite R'.
  eexists _, _, _, _. split; [reflexivity|]. split; [reflexivity|]. destruct F as [T F]. pose proof (occ_range x09 x). pose proof (occ_range x09 x'). pose proof (occ_range x0a a).
  split; [lia|]. split; [nia|]. split; [nia|]. split; [rewrite occ_app; lia|]. intros D.
  destruct (line_col_here tab t (p ++ (x ++ d)) b) as (p2 & x2 & E2 & N2 & P2 & R2).
  { rewrite app_assoc, <- E. exact Ht. } { split; [exact T|]. rewrite app_assoc, <- E, <- app_assoc. exact F. }
  assert (Hc : line_col tab t = Ok ((1 + occ x0a (p ++ x ++ d), 1 + (slen (x ++ d) - occ x09 (x ++ d)) + occ x09 (x ++ d) * tab), t)).
  { apply (C17_column_that_fits t _ b p (x ++ d)); auto.
    - rewrite app_assoc, <- E. exact Ht.
    - rewrite in_app_iff. tauto.
    - pose proof (occ_range x09 (x ++ d)) as O. rewrite E, !slen_app in F. pose proof (slen_nonneg p). pose proof (slen_nonneg b). rewrite slen_app in *.
      set (o := occ x09 (x ++ d)) in *. assert (o * (tab - 1) <= (slen x + slen d) * (tab - 1)) by nia. assert (0 <= o * (tab - 1)) by nia. nia. }
  rewrite R' in Hc. apply (f_equal (fun r => match r with Ok (x, _) => snd x | _ => 0 end)) in Hc. cbn [snd] in Hc. rewrite slen_app, occ_app in Hc. rewrite Hc. ring.
Qed.
(** The further behind, the later in line and column. *)
Theorem C168_order tab s t a a' b b' l c l' c' : at_split s a b -> at_split t a' b' -> a ++ b = a' ++ b' -> fits tab (a ++ b) ->
  line_col tab s = Ok ((l, c), s) -> line_col tab t = Ok ((l', c'), t) ->
  (pos (sc s) < pos (sc t) <-> l < l' \/ l = l' /\ c < c') /\ (pos (sc s) = pos (sc t) <-> l = l' /\ c = c').
Proof.
  assert (W : forall s t a a' b b' l c l' c', at_split s a b -> at_split t a' b' -> a ++ b = a' ++ b' -> fits tab (a ++ b) ->
    line_col tab s = Ok ((l, c), s) -> line_col tab t = Ok ((l', c'), t) -> pos (sc s) <= pos (sc t) ->
    (pos (sc s) = pos (sc t) /\ l = l' /\ c = c') \/ (pos (sc s) < pos (sc t) /\ (l < l' \/ l = l' /\ c < c'))).
  { clear. intros s t a a' b b' l c l' c' Hs Ht E F C C' Q. pose proof Hs as (Fs & Ps & Bs). pose proof Ht as (Ft & Pt & Bt). rewrite Ps, Pt in *.
    assert (X : exists d, a' = a ++ d /\ b = d ++ b').
    { unfold slen in Q. clear -E Q. revert a' E Q. induction a as [|x a IH]; intros a' E Q; [exists a'; auto|]. destruct a' as [|y a']; [cbn in Q; lia|]. cbn in E. injection E as <- E.
      destruct (IH a' E) as (d & -> & ->); [cbn [length] in Q; lia|]. exists d. auto. }
    destruct X as (d & -> & ->). destruct (C168_between tab s t a d b' Hs Ht F) as (l0 & c0 & l1 & c1 & R & R' & _ & _ & _ & A & B). rewrite C in R. rewrite C' in R'. injection R as <- <-. injection R' as <- <-.
    destruct d as [|y d]; [left; rewrite app_nil_r; unfold occ in A; cbn in A; rewrite B by auto; cbn; lia|]. right. rewrite slen_app. pose proof (occ_range x09 (y :: d)) as O. assert (Z1 : 1 <= slen (y :: d)) by (unfold slen; cbn [length]; lia).
    split; [lia|]. destruct (in_dec Byte.byte_eq_dec x0a (y :: d)) as [I|I]; [left; apply occ_in in I; lia|]. right. rewrite (occ_out _ _ I) in A. specialize (B I). destruct F as [T _]. split; [lia|]. nia. }
  intros Hs Ht E F C C'. destruct (Z.le_ge_cases (pos (sc s)) (pos (sc t))) as [Q|Q].
  - destruct (W s t a a' b b' l c l' c' Hs Ht E F C C' Q) as [X|X]; lia.
  - assert (F' : fits tab (a' ++ b')) by (rewrite <- E; exact F). destruct (W t s a' a b' b l' c' l c Ht Hs (eq_sym E) F' C' C) as [X|X]; lia.
Qed.
Print Assumptions C168_between.
Print Assumptions C168_order.
Example C168_case : let t := lit "ab" ++ [x0d; x0a; x09] ++ lit "cd" in fits 4 t /\ at_split (mk t 3) (lit "ab" ++ [x0d]) ([x0a; x09] ++ lit "cd") /\
  map (fun p => match line_col 4 (mk t p) with Ok (x, _) => x | _ => (0, 0) end) [0; 1; 2; 3; 4; 5; 6; 7] = [(1, 1); (1, 2); (1, 3); (1, 4); (2, 1); (2, 5); (2, 6); (2, 7)].
Proof. split; [vm_compute; intuition discriminate|]. split; [split_here|reflexivity]. Qed.
(** Tabs without width hide positions; tabs that are too wide give negative columns. *)
Example C168_condition : let t := [x09; x09; x09] in
  line_col 0 (mk t 1) = Ok ((1, 1), mk t 1) /\ line_col 0 (mk t 2) = Ok ((1, 1), mk t 2) /\ line_col (2 ^ 62) (mk t 2) = Ok ((1, - 2 ^ 63 + 1), mk t 2).
Proof. split; [reflexivity|]. split; vm_compute; reflexivity. Qed.
