(** SortFacts.v - go_stable sorts, for every comparison that is compatible with a
    transitive relation on the pairs that the algorithm compares. *)
From Verif Require Export GoSort.
From Coq Require Import Lia Sorted Permutation.

Lemma div2_bounds n : (2 * Nat.div2 n <= n <= 2 * Nat.div2 n + 1)%nat.
Proof.
  rewrite Nat.div2_div. pose proof (Nat.div_mod n 2 ltac:(lia)). pose proof (Nat.mod_upper_bound n 2 ltac:(lia)). lia.
Qed.

Lemma bsearch_spec p k : forall i j, (i <= j)%nat -> (j - i <= k)%nat ->
  let r := bsearch k p i j in
  (i <= r <= j)%nat /\ (r = i \/ ((i < r)%nat /\ p (r - 1)%nat = true)) /\ (r = j \/ p r = false).
Proof.
  induction k as [|k IH]; intros i j H1 H2 r; subst r; cbn [bsearch].
  - replace j with i by lia. repeat split; auto.
  - destruct (Nat.ltb_spec i j) as [L|L].
    + pose proof (div2_bounds (i + j)) as D. set (h := Nat.div2 (i + j)) in *.
      destruct (p h) eqn:E.
      * destruct (IH (S h) j ltac:(lia) ltac:(lia)) as (A & B & C). split; [lia|]. split; [|exact C].
        right. destruct B as [B|[B B']]; [|split; [lia|exact B']].
        rewrite B. split; [lia|]. replace (S h - 1)%nat with h by lia. exact E.
      * destruct (IH i h ltac:(lia) ltac:(lia)) as (A & B & C). split; [lia|]. split; [exact B|].
        right. destruct C as [C|C]; [rewrite C; exact E|exact C].
    + replace j with i by lia. repeat split; auto.
Qed.

Section Sorted.
Context {A : Type} (less : A -> A -> bool) (le : A -> A -> Prop).
Context (le_trans : forall x y z, le x y -> le y z -> le x z).
Notation sorted := (StronglySorted le).

(** What the comparison of a right element with a left element has to tell. *)
Definition fits_pair (a b : A) : Prop :=
  (less b a = true -> le b a) /\ (less b a = false -> le a b).
Definition fits (l r : list A) : Prop := forall a b, In a l -> In b r -> fits_pair a b.
Definition all_le (l r : list A) : Prop := forall a b, In a l -> In b r -> le a b.

Lemma sorted_app l r : sorted (l ++ r) <-> sorted l /\ sorted r /\ all_le l r.
Proof.
  induction l as [|x l IH]; cbn [app].
  - split; [intros H; repeat split; auto; [constructor|intros a b []]|tauto].
  - split.
    + intros H. inversion H as [|? ? S F]; subst. apply IH in S as (S1 & S2 & S3).
      apply Forall_app in F as [F1 F2]. split; [constructor; auto|]. split; auto.
      intros a b [->|I] J; [rewrite Forall_forall in F2; auto|apply S3; auto].
    + intros (S1 & S2 & S3). inversion S1 as [|? ? S F]; subst. constructor.
      * apply IH. repeat split; auto. intros a b I J. apply S3; auto. right; auto.
      * apply Forall_app. split; auto. rewrite Forall_forall. intros b J. apply S3; auto. left; auto.
Qed.

Lemma sorted_cons x l : sorted (x :: l) <-> sorted l /\ (forall b, In b l -> le x b).
Proof.
  split.
  - intros H. inversion H as [|? ? S F]; subst. split; auto. rewrite Forall_forall in F. auto.
  - intros [S F]. constructor; auto. rewrite Forall_forall. auto.
Qed.

(* ------------------------------------------------------------ insertion sort *)

Lemma sift_perm x rl : Permutation (sift less x rl) (x :: rl).
Proof.
  induction rl as [|y t IH]; cbn [sift]; [apply Permutation_refl|].
  destruct (less x y); [|apply Permutation_refl].
  apply Permutation_trans with (y :: x :: t); [constructor; exact IH|apply perm_swap].
Qed.

Lemma sift_sorted x rl : (forall y, In y rl -> fits_pair y x) ->
  sorted (rev rl) -> sorted (rev (sift less x rl)).
Proof.
  induction rl as [|y t IH]; intros F S; cbn [sift].
  - cbn. repeat constructor.
  - destruct (less x y) eqn:E.
    + cbn [rev] in *. apply sorted_app in S as (S1 & S2 & S3).
      assert (Lxy : le x y) by (apply (F y); [left; auto|exact E]).
      apply sorted_app. split; [apply IH; auto; intros; apply F; right; auto|].
      split; [auto|]. intros a b I [<-|[]].
      apply in_rev in I. apply (Permutation_in _ (sift_perm x t)) in I as [<-|I]; [auto|].
      apply S3; [apply in_rev; rewrite rev_involutive; auto|left; auto].
    + assert (Lyx : le y x) by (apply (F y); [left; auto|exact E]).
      change (rev (x :: y :: t)) with (rev (y :: t) ++ [x]). apply sorted_app. split; [auto|].
      split; [repeat constructor|]. intros a b I [<-|[]].
      cbn [rev] in I, S. apply in_app_or in I as [I|[<-|[]]]; auto.
      apply sorted_app in S as (_ & _ & S3). apply le_trans with y; auto. apply S3; auto. left; auto.
Qed.

Inductive fop (R : A -> A -> Prop) : list A -> Prop :=
| fop_nil : fop R []
| fop_cons x l : (forall y, In y l -> R x y) -> fop R l -> fop R (x :: l).

Lemma fop_app R l r : fop R (l ++ r) <-> fop R l /\ fop R r /\ (forall a b, In a l -> In b r -> R a b).
Proof.
  induction l as [|x l IH]; cbn [app].
  - split; [intros H; repeat split; auto; [constructor|intros a b []]|tauto].
  - split.
    + intros H. inversion H as [|? ? F S]; subst. apply IH in S as (S1 & S2 & S3).
      split; [constructor; auto; intros; apply F, in_or_app; auto|]. split; auto.
      intros a b [->|I] J; [apply F, in_or_app; auto|auto].
    + intros (S1 & S2 & S3). inversion S1 as [|? ? F S]; subst. constructor.
      * intros y I. apply in_app_or in I as [I|I]; auto. apply S3; auto. left; auto.
      * apply IH. repeat split; auto. intros; apply S3; auto. right; auto.
Qed.

Lemma insertion_rev_spec l : forall rl, sorted (rev rl) ->
  (forall y x, In y rl -> In x l -> fits_pair y x) -> fop fits_pair l ->
  sorted (rev (insertion_rev less l rl)) /\ Permutation (insertion_rev less l rl) (l ++ rl).
Proof.
  induction l as [|x l IH]; intros rl S F P; cbn [insertion_rev]; [split; [auto|apply Permutation_refl]|].
  inversion P as [|? ? Px Pl]; subst.
  destruct (IH (sift less x rl)) as [S' P'].
  - apply sift_sorted; auto. intros y I. apply F; auto. left; auto.
  - intros y z I J. apply (Permutation_in _ (sift_perm x rl)) in I as [<-|I].
    + apply Px; auto.
    + apply F; auto. right; auto.
  - auto.
  - split; auto. eapply Permutation_trans; [exact P'|].
    eapply Permutation_trans; [apply Permutation_app_head, sift_perm|].
    apply Permutation_sym, Permutation_middle.
Qed.

Lemma insertion_sort_spec l : fop fits_pair l ->
  sorted (insertion_sort less l) /\ Permutation (insertion_sort less l) l.
Proof.
  intros P. destruct (insertion_rev_spec l [] ltac:(constructor) ltac:(intros y x []) P) as [S Q].
  split; [exact S|]. unfold insertion_sort. eapply Permutation_trans; [apply Permutation_sym, Permutation_rev|].
  rewrite app_nil_r in Q. exact Q.
Qed.

(* ----------------------------------------------------------------- merging *)

Lemma firstn_le u : forall i a, sorted u -> (0 < i)%nat -> nth_error u (i - 1) = Some a ->
  forall x, In x (firstn i u) -> x = a \/ le x a.
Proof.
  induction u as [|y u IH]; intros i a HS Hi N x I.
  - rewrite firstn_nil in I. destruct I.
  - destruct i as [|i]; [lia|]. cbn [firstn] in I. apply sorted_cons in HS as [HS F].
    replace (S i - 1)%nat with i in N by lia.
    destruct i as [|i].
    + cbn in I. cbn in N. injection N as ->. destruct I as [->|[]]; auto.
    + cbn in N. destruct I as [->|I].
      * right. apply F. eapply nth_error_In; eauto.
      * apply (IH (S i) a HS ltac:(lia)); auto. replace (S i - 1)%nat with i by lia. exact N.
Qed.

Lemma skipn_le u : forall i a, sorted u -> nth_error u i = Some a ->
  forall x, In x (skipn i u) -> x = a \/ le a x.
Proof.
  induction u as [|y u IH]; intros i a S N x I.
  - destruct i; discriminate.
  - apply sorted_cons in S as [S F]. destruct i as [|i].
    + cbn in N, I. injection N as ->. destruct I as [->|I]; auto.
    + cbn in N, I. apply (IH i a S N x I).
Qed.

Lemma sorted_firstn i u : sorted u -> sorted (firstn i u).
Proof. intros S. rewrite <- (firstn_skipn i u) in S. apply sorted_app in S. tauto. Qed.
Lemma sorted_skipn i u : sorted u -> sorted (skipn i u).
Proof. intros S. rewrite <- (firstn_skipn i u) in S. apply sorted_app in S. tauto. Qed.
Lemma sorted_halves i u : sorted u -> all_le (firstn i u) (skipn i u).
Proof. intros S. rewrite <- (firstn_skipn i u) in S. apply sorted_app in S. tauto. Qed.

Lemma in_firstn i (u : list A) x : In x (firstn i u) -> In x u.
Proof. intros I. rewrite <- (firstn_skipn i u). apply in_or_app; auto. Qed.
Lemma in_skipn i (u : list A) x : In x (skipn i u) -> In x u.
Proof. intros I. rewrite <- (firstn_skipn i u). apply in_or_app; auto. Qed.

Lemma less_at_l u v i j : (i < length u)%nat -> (j < length v)%nat ->
  exists a b, nth_error u i = Some a /\ nth_error v j = Some b /\
    less_at less (u ++ v) (length u + j) i = less b a.
Proof.
  intros Hi Hj. destruct (nth_error u i) as [a|] eqn:Ea; [|apply nth_error_None in Ea; lia].
  destruct (nth_error v j) as [b|] eqn:Eb; [|apply nth_error_None in Eb; lia].
  exists a, b. repeat split; auto. unfold less_at.
  rewrite nth_error_app2 by lia. replace (length u + j - length u)%nat with j by lia.
  rewrite nth_error_app1 by lia. rewrite Ea, Eb. reflexivity.
Qed.

(** Splitting u at i and v at j where a right element tested against a left one. *)
Lemma cut_uv u v i j : sorted u -> sorted v -> fits u v -> (0 < i <= length u)%nat -> (j < length v)%nat ->
  less_at less (u ++ v) (length u + j) (i - 1) = false -> all_le (firstn i u) (skipn j v).
Proof.
  intros Su Sv F Hi Hj E. destruct (less_at_l u v (i - 1) j) as (a & b & Ea & Eb & Q); try lia.
  rewrite Q in E. assert (L : le a b) by (apply (proj2 (F a b (nth_error_In _ _ Ea) (nth_error_In _ _ Eb))); exact E).
  intros x y Ix Iy.
  destruct (firstn_le u i a Su ltac:(lia) Ea x Ix) as [->|Lx];
  destruct (skipn_le v j b Sv Eb y Iy) as [->|Ly]; eauto.
Qed.
Lemma cut_vu u v i j : sorted u -> sorted v -> fits u v -> (i < length u)%nat -> (0 < j <= length v)%nat ->
  less_at less (u ++ v) (length u + (j - 1)) i = true -> all_le (firstn j v) (skipn i u).
Proof.
  intros Su Sv F Hi Hj E. destruct (less_at_l u v i (j - 1)) as (a & b & Ea & Eb & Q); try lia.
  rewrite Q in E. assert (L : le b a) by (apply (proj1 (F a b (nth_error_In _ _ Ea) (nth_error_In _ _ Eb))); exact E).
  intros x y Ix Iy.
  destruct (firstn_le v j b Sv ltac:(lia) Eb x Ix) as [->|Lx];
  destruct (skipn_le u i a Su Ea y Iy) as [->|Ly]; eauto.
Qed.

Lemma all_le_app_l l1 l2 r : all_le l1 r -> all_le l2 r -> all_le (l1 ++ l2) r.
Proof. intros H1 H2 a b I J. apply in_app_or in I as [I|I]; auto. Qed.
Lemma all_le_app_r l r1 r2 : all_le l r1 -> all_le l r2 -> all_le l (r1 ++ r2).
Proof. intros H1 H2 a b I J. apply in_app_or in J as [J|J]; auto. Qed.
Lemma all_le_perm l l' r r' : Permutation l' l -> Permutation r' r -> all_le l r -> all_le l' r'.
Proof.
  intros P Q H a b I J. apply H; [eapply Permutation_in; eauto|eapply Permutation_in; eauto].
Qed.
Lemma all_le_nil_l r : all_le [] r.
Proof. intros a b []. Qed.
Lemma all_le_nil_r l : all_le l [].
Proof. intros a b _ []. Qed.

Lemma firstn_all_ge (l : list A) n : (length l <= n)%nat -> firstn n l = l.
Proof. apply firstn_all2. Qed.
Lemma skipn_all_ge (l : list A) n : (length l <= n)%nat -> skipn n l = [].
Proof. apply skipn_all2. Qed.

Lemma perm_halves i j (u v : list A) :
  Permutation ((firstn i u ++ firstn j v) ++ (skipn i u ++ skipn j v)) (u ++ v).
Proof.
  transitivity ((firstn i u ++ skipn i u) ++ (firstn j v ++ skipn j v)).
  - rewrite <- !app_assoc. apply Permutation_app_head. rewrite !app_assoc. apply Permutation_app_tail.
    apply Permutation_app_comm.
  - rewrite !firstn_skipn. apply Permutation_refl.
Qed.

Lemma sym_merge_spec k : forall u v, (length u + length v < k)%nat -> u <> [] -> v <> [] ->
  sorted u -> sorted v -> fits u v ->
  sorted (sym_merge less k u v) /\ Permutation (sym_merge less k u v) (u ++ v).
Proof.
  induction k as [|k IH]; intros u v Hk Nu Nv Su Sv F; [lia|].
  assert (Lu : (0 < length u)%nat) by (destruct u; [congruence|cbn; lia]).
  assert (Lv : (0 < length v)%nat) by (destruct v; [congruence|cbn; lia]).
  cbn [sym_merge]. rewrite app_length.
  destruct (Nat.eqb_spec (length u) 1) as [E1|E1].
  { destruct u as [|x [|]]; try discriminate. clear E1 Lu Nu.
    change (length [x]) with 1%nat in *.
    match goal with |- context [bsearch ?a ?p ?b ?c] => pose proof (bsearch_spec p a b c ltac:(lia) ltac:(lia)) as B end.
    cbv zeta in B. set (i := bsearch _ _ _ _) in *. destruct B as (R & B1 & B2).
    assert (A1 : all_le (firstn (i - 1) v) [x]).
    { destruct B1 as [->|[G B1]]; [apply all_le_nil_l|].
      assert (all_le (firstn (i - 1) v) (skipn 0 [x])); [|auto].
      apply cut_vu; auto; cbn [length]; try lia.
      replace (1 + (i - 1 - 1))%nat with (i - 1)%nat by lia. exact B1. }
    assert (A2 : all_le [x] (skipn (i - 1) v)).
    { destruct B2 as [B2|B2]; [rewrite skipn_all_ge by lia; apply all_le_nil_r|].
      destruct (Nat.eq_dec (i - 1) (length v)) as [E|E]; [rewrite skipn_all_ge by lia; apply all_le_nil_r|].
      assert (all_le (firstn 1 [x]) (skipn (i - 1) v)); [|auto].
      apply cut_uv; auto; cbn [length]; try lia.
      replace (1 + (i - 1))%nat with i by lia. exact B2. }
    split.
    - apply sorted_app. split; [apply sorted_firstn; auto|]. split.
      + apply sorted_app. repeat split; auto. apply sorted_skipn; auto.
      + apply all_le_app_r; auto. apply sorted_halves; auto.
    - rewrite app_assoc. eapply Permutation_trans; [apply Permutation_app_tail, Permutation_app_comm|].
      rewrite <- app_assoc. apply Permutation_app_head. rewrite firstn_skipn. apply Permutation_refl. }
  replace (length u + length v - length u)%nat with (length v) by lia.
  destruct (Nat.eqb_spec (length v) 1) as [E2|E2].
  { destruct v as [|y [|]]; try discriminate. clear E2 Lv Nv.
    change (length [y]) with 1%nat in *.
    match goal with |- context [bsearch ?a ?p ?b ?c] => pose proof (bsearch_spec p a b c ltac:(lia) ltac:(lia)) as B end.
    cbv zeta in B. set (i := bsearch _ _ _ _) in *. destruct B as (R & B1 & B2).
    assert (A1 : all_le (firstn i u) [y]).
    { destruct B1 as [->|[G B1]]; [apply all_le_nil_l|].
      apply (cut_uv u [y] i 0); auto; cbn [length]; try lia.
      apply negb_true_iff in B1. replace (length u + 0)%nat with (length u) by lia. exact B1. }
    assert (A2 : all_le [y] (skipn i u)).
    { destruct B2 as [B2|B2]; [rewrite skipn_all_ge by lia; apply all_le_nil_r|].
      destruct (Nat.eq_dec i (length u)) as [E|E]; [rewrite skipn_all_ge by lia; apply all_le_nil_r|].
      apply (cut_vu u [y] i 1); auto; cbn [length]; try lia.
      apply negb_false_iff in B2. replace (length u + (1 - 1))%nat with (length u) by lia. exact B2. }
    split.
    - apply sorted_app. split; [apply sorted_firstn; auto|]. split.
      + apply sorted_app. repeat split; auto. apply sorted_skipn; auto.
      + apply all_le_app_r; auto. apply sorted_halves; auto.
    - eapply Permutation_trans; [apply Permutation_app_head, Permutation_app_comm|].
      rewrite app_assoc, firstn_skipn. apply Permutation_refl. }
  set (m := length u) in *. set (b := (m + length v)%nat) in *.
  pose proof (div2_bounds b) as D. set (mid := Nat.div2 b) in *. set (n := (mid + m)%nat).
  assert (X : exists start0 r0, (if Nat.ltb mid m then ((n - b)%nat, mid) else (0%nat, m)) = (start0, r0) /\
    (start0 <= r0)%nat /\ (r0 <= m)%nat /\ (r0 <= mid)%nat /\ (n - b <= start0)%nat /\
    (start0 = 0%nat \/ start0 = (n - b)%nat /\ b <= n)%nat /\ (r0 = m \/ r0 = mid)).
  { destruct (Nat.ltb_spec mid m); eexists _, _; (split; [reflexivity|]); subst n; lia. }
  destruct X as (start0 & r0 & -> & X1 & X2 & X3 & X4 & X5 & X6).
  match goal with |- context [bsearch ?a ?p ?b ?c] => pose proof (bsearch_spec p a b c ltac:(lia) ltac:(lia)) as B end.
  cbv zeta in B. set (start := bsearch _ _ _ _) in *. destruct B as (R & B1 & B2).
  set (en := (n - start)%nat).
  assert (En : (m <= en <= b)%nat) by (subst en n; lia).
  set (j := (en - m)%nat).
  assert (Hj : (j + start = mid)%nat) by (subst j en n; lia).
  assert (Hjv : (j <= length v)%nat) by (subst j; lia).
  assert (A1 : all_le (firstn start u) (skipn j v)).
  { destruct B1 as [B1|[G B1]].
    - destruct X5 as [X5|[X5 X5']].
      + rewrite B1, X5. apply all_le_nil_l.
      + rewrite (skipn_all_ge v) by (subst j en; lia). apply all_le_nil_r.
    - destruct (Nat.eq_dec j (length v)) as [E|E]; [rewrite (skipn_all_ge v) by lia; apply all_le_nil_r|].
      apply (cut_uv u v start j); auto; fold m; try lia.
      apply negb_true_iff in B1. rewrite <- B1. f_equal. subst n. lia. }
  assert (A2 : all_le (firstn j v) (skipn start u)).
  { destruct (Nat.eq_dec j 0) as [E0|E0]; [rewrite E0; apply all_le_nil_l|].
    destruct (Nat.eq_dec start m) as [Em|Em]; [rewrite (skipn_all_ge u) by (fold m; lia); apply all_le_nil_r|].
    destruct B2 as [B2|B2]; [lia|].
    apply (cut_vu u v start j); auto; fold m; try lia.
    apply negb_false_iff in B2. rewrite <- B2. f_equal. subst n. lia. }
  set (u1 := firstn start u) in *. set (u2 := skipn start u) in *.
  set (v1 := firstn j v) in *. set (v2 := skipn j v) in *.
  assert (Lu1 : length u1 = start) by (unfold u1; rewrite firstn_length; fold m; lia).
  assert (Lu2 : length u2 = (m - start)%nat) by (unfold u2; rewrite skipn_length; reflexivity).
  assert (Lv1 : length v1 = j) by (unfold v1; rewrite firstn_length; lia).
  assert (Lv2 : length v2 = (length v - j)%nat) by (unfold v2; rewrite skipn_length; reflexivity).
  assert (Su1 : sorted u1) by (apply sorted_firstn; auto).
  assert (Su2 : sorted u2) by (apply sorted_skipn; auto).
  assert (Sv1 : sorted v1) by (apply sorted_firstn; auto).
  assert (Sv2 : sorted v2) by (apply sorted_skipn; auto).
  assert (LEFT : exists l, (if Nat.ltb 0 start && Nat.ltb start mid then sym_merge less k u1 v1 else u1 ++ v1) = l
     /\ sorted l /\ Permutation l (u1 ++ v1)).
  { destruct (Nat.ltb_spec 0 start); destruct (Nat.ltb_spec start mid); cbn [andb];
      (eexists; split; [reflexivity|]).
    - apply IH; auto; try (lia || (intros Z; rewrite Z in *; cbn in *; lia)).
      intros a c Ia Ic. apply F; [eapply in_firstn; eauto|eapply in_firstn; eauto].
    - split; [|apply Permutation_refl]. assert (v1 = []) as -> by (apply length_zero_iff_nil; lia). rewrite app_nil_r. auto.
    - split; [|apply Permutation_refl]. assert (u1 = []) as -> by (apply length_zero_iff_nil; lia). auto.
    - split; [|apply Permutation_refl]. assert (u1 = []) as -> by (apply length_zero_iff_nil; lia). auto. }
  assert (RIGHT : exists l, (if Nat.ltb mid en && Nat.ltb en b then sym_merge less k u2 v2 else u2 ++ v2) = l
     /\ sorted l /\ Permutation l (u2 ++ v2)).
  { destruct (Nat.ltb_spec mid en); destruct (Nat.ltb_spec en b); cbn [andb];
      (eexists; split; [reflexivity|]).
    - apply IH; auto; try (lia || (intros Z; rewrite Z in *; cbn in *; lia)).
      intros a c Ia Ic. apply F; [eapply in_skipn; eauto|eapply in_skipn; eauto].
    - split; [|apply Permutation_refl]. assert (v2 = []) as -> by (apply length_zero_iff_nil; lia). rewrite app_nil_r. auto.
    - split; [|apply Permutation_refl]. assert (u2 = []) as -> by (apply length_zero_iff_nil; lia). auto.
    - split; [|apply Permutation_refl]. assert (u2 = []) as -> by (apply length_zero_iff_nil; lia). auto. }
  destruct LEFT as (l & -> & Sl & Pl). destruct RIGHT as (r & -> & Sr & Pr).
  split.
  - apply sorted_app. split; [auto|]. split; [auto|]. apply (all_le_perm _ _ _ _ Pl Pr).
    apply all_le_app_l; apply all_le_app_r; auto; apply sorted_halves; auto.
  - eapply Permutation_trans; [apply Permutation_app; eauto|]. apply perm_halves.
Qed.

(* ------------------------------------------------------------------ blocks *)

(** All blocks but the last are non-empty, every block is sorted, and elements of
    earlier blocks fit elements of later ones. *)
Fixpoint good (bl : list (list A)) : Prop :=
  match bl with
  | [] => True
  | [x] => sorted x
  | x :: t => x <> [] /\ sorted x /\ fits x (concat t) /\ good t
  end.

Lemma fits_perm l l' r r' : Permutation l' l -> Permutation r' r -> fits l r -> fits l' r'.
Proof. intros P Q H a b I J. apply H; [eapply Permutation_in; eauto|eapply Permutation_in; eauto]. Qed.

Lemma concat_blocks k bs (l : list A) : concat (blocks k bs l) = l.
Proof.
  revert l. induction k as [|k IH]; intros l; cbn [blocks]; [cbn; apply app_nil_r|].
  destruct (Nat.ltb _ _); [cbn; apply app_nil_r|]. cbn [concat]. rewrite IH. apply firstn_skipn.
Qed.

Lemma blocks_good k bs : (0 < bs)%nat -> forall l, fop fits_pair l ->
  good (map (insertion_sort less) (blocks k bs l)) /\
  Permutation (concat (map (insertion_sort less) (blocks k bs l))) l /\
  (length (blocks k bs l) <= S (length l))%nat.
Proof.
  intros Hb. induction k as [|k IH]; intros l P; cbn [blocks].
  - cbn. rewrite app_nil_r. destruct (insertion_sort_spec l P). repeat split; auto. lia.
  - destruct (Nat.ltb_spec (length l) bs) as [L|L].
    { cbn. rewrite app_nil_r. destruct (insertion_sort_spec l P). repeat split; auto. lia. }
    assert (P2 := P). rewrite <- (firstn_skipn bs l) in P2. apply fop_app in P2 as (P1 & P2 & P3).
    destruct (IH _ P2) as (G & Q & N). destruct (insertion_sort_spec _ P1) as [S Q1].
    cbn [map concat length]. split; [|split].
    + assert (Ne : insertion_sort less (firstn bs l) <> []).
      { intros E. apply Permutation_length in Q1. rewrite E, firstn_length in Q1. cbn in Q1. lia. }
      cbn [good]. destruct (map (insertion_sort less) (blocks k bs (skipn bs l))) eqn:Em; [auto|].
      rewrite <- Em in *. split; [auto|]. split; [auto|]. split; [|auto].
      apply (fits_perm _ _ _ _ Q1 Q). exact P3.
    + rewrite <- (firstn_skipn bs l) at 3. apply Permutation_app; auto.
    + rewrite skipn_length in N. lia.
Qed.

Lemma merge_pass_spec n : forall bl, (length bl <= n)%nat -> good bl ->
  good (merge_pass less bl) /\ Permutation (concat (merge_pass less bl)) (concat bl) /\
  (length (merge_pass less bl) <= length bl)%nat /\
  ((2 <= length bl)%nat -> (length (merge_pass less bl) < length bl)%nat).
Proof.
  induction n as [|n IH]; intros bl Hn G.
  - destruct bl; [|cbn in Hn; lia]. cbn. repeat split; auto; lia.
  - destruct bl as [|x [|y t]]; [cbn; repeat split; auto; lia|cbn; repeat split; auto; lia|].
    cbn [merge_pass]. cbn [good] in G. destruct G as (Nx & Sx & Fx & G).
    assert (Gt : good t /\ sorted y /\ fits y (concat t) /\ (t <> [] -> y <> [])).
    { destruct t as [|z t]; [cbn; split; [exact I|]; split; [exact G|]; split; [intros ? ? _ []|congruence]|].
      destruct G as (Ny & Sy & Fy & Gt). auto. }
    destruct Gt as (Gt & Sy & Fy & Ny).
    destruct (IH t ltac:(cbn in Hn; lia) Gt) as (G' & P' & L' & _).
    assert (X : exists z, match y with [] => x | _ :: _ => sym_merge less (S (length x + length y)) x y end = z
      /\ sorted z /\ Permutation z (x ++ y)).
    { destruct y as [|y0 y'] eqn:Ey; (eexists; split; [reflexivity|]).
      - rewrite app_nil_r. auto.
      - rewrite <- Ey in *. apply sym_merge_spec; [lia|auto|rewrite Ey; discriminate|auto|auto|].
        intros a b I J. apply Fx; auto. cbn [concat]. apply in_or_app; auto. }
    destruct X as (z & -> & Sz & Pz). cbn [concat length]. split; [|split; [|lia]].
    + cbn [good]. destruct (merge_pass less t) eqn:Em; [auto|]. rewrite <- Em in *.
      split; [|split; [auto|split; [|auto]]].
      * intros ->. apply Permutation_length in Pz. rewrite app_length in Pz. destruct x; [congruence|cbn in Pz; lia].
      * apply (fits_perm (x ++ y) z (concat t) _ Pz P').
        intros a b I J. apply in_app_or in I as [I|I]; [|auto]. apply Fx; auto. cbn. apply in_or_app; auto.
    + rewrite app_assoc. apply Permutation_app; auto.
Qed.

Lemma merge_all_spec k : forall bl, (length bl <= S k)%nat -> good bl ->
  sorted (merge_all less k bl) /\ Permutation (merge_all less k bl) (concat bl).
Proof.
  induction k as [|k IH]; intros bl Hk G; cbn [merge_all].
  - destruct bl as [|x [|y t]]; [cbn; split; constructor| |cbn in Hk; lia].
    cbn in *. rewrite app_nil_r. auto.
  - destruct bl as [|x [|y t]]; [cbn; split; constructor|cbn; rewrite app_nil_r; auto|].
    destruct (merge_pass_spec _ (x :: y :: t) (le_n _) G) as (G' & P' & L1 & L2).
    destruct (IH (merge_pass less (x :: y :: t)) ltac:(cbn in *; lia) G') as [S P].
    split; auto. eapply Permutation_trans; eauto.
Qed.

Theorem go_stable_spec l : fop fits_pair l ->
  sorted (go_stable less l) /\ Permutation (go_stable less l) l.
Proof.
  intros P. unfold go_stable. destruct (blocks_good (length l) 20 ltac:(lia) l P) as (G & Q & N).
  destruct (merge_all_spec (length l) _ ltac:(rewrite map_length; exact N) G) as [S R].
  split; auto. eapply Permutation_trans; eauto.
Qed.

End Sorted.

(** With a trivial relation: go_stable always permutes. *)
Theorem go_stable_perm {A} (less : A -> A -> bool) l : Permutation (go_stable less l) l.
Proof.
  apply (go_stable_spec less (fun _ _ => True)); auto.
  induction l; constructor; auto. intros; split; auto.
Qed.

(* ------------------------------------------------------ renaming and stability *)

Section Map.
Context {A B : Type} (f : B -> A) (less : A -> A -> bool).
Definition lift (x y : B) : bool := less (f x) (f y).

Lemma sift_map x rl : sift less (f x) (map f rl) = map f (sift lift x rl).
Proof.
  induction rl as [|y t IH]; cbn [sift map]; auto. unfold lift at 1. destruct (less (f x) (f y)); auto.
  cbn [map]. rewrite IH. reflexivity.
Qed.
Lemma insertion_rev_map l : forall rl, insertion_rev less (map f l) (map f rl) = map f (insertion_rev lift l rl).
Proof. induction l as [|x l IH]; intros rl; cbn [insertion_rev map]; auto. rewrite sift_map. apply IH. Qed.
Lemma insertion_sort_map l : insertion_sort less (map f l) = map f (insertion_sort lift l).
Proof. unfold insertion_sort. rewrite map_rev. f_equal. exact (insertion_rev_map l []). Qed.
Lemma less_at_map l i j : less_at less (map f l) i j = less_at lift l i j.
Proof.
  unfold less_at. rewrite !nth_error_map. destruct (nth_error l i), (nth_error l j); reflexivity.
Qed.
Lemma bsearch_ext k p q : (forall i, p i = q i) -> forall i j, bsearch k p i j = bsearch k q i j.
Proof.
  intros H. induction k as [|k IH]; intros i j; cbn [bsearch]; auto. rewrite H, !IH. reflexivity.
Qed.
Lemma sym_merge_map k : forall u v, sym_merge less k (map f u) (map f v) = map f (sym_merge lift k u v).
Proof.
  induction k as [|k IH]; intros u v; cbn [sym_merge]; [rewrite map_app; reflexivity|].
  rewrite <- !map_app, !map_length.
  destruct (Nat.eqb (length u) 1).
  { rewrite (bsearch_ext _ _ (fun h => less_at lift (u ++ v) h 0)) by (intros; apply less_at_map).
    rewrite !firstn_map, !skipn_map, !map_app. reflexivity. }
  destruct (Nat.eqb (length (u ++ v) - length u) 1).
  { rewrite (bsearch_ext _ _ (fun h => negb (less_at lift (u ++ v) (length u) h))) by (intros; rewrite less_at_map; reflexivity).
    rewrite !firstn_map, !skipn_map, !map_app. reflexivity. }
  destruct (if Nat.ltb _ _ then _ else _) as [start0 r0].
  rewrite (bsearch_ext _ _ (fun c => negb (less_at lift (u ++ v) (Nat.div2 (length (u ++ v)) + length u - 1 - c) c)))
    by (intros; rewrite less_at_map; reflexivity).
  match goal with |- context [bsearch ?a ?p ?b ?c] => set (start := bsearch a p b c) end.
  rewrite !firstn_map, !skipn_map, !IH. match goal with |- _ = map f ((if ?c then ?x else ?y) ++ (if ?c' then ?x' else ?y')) =>
    rewrite (map_app f (if c then x else y)) end. f_equal.
  - destruct (_ && _); rewrite ?map_app; reflexivity.
  - destruct (_ && _); rewrite ?map_app; reflexivity.
Qed.
Lemma blocks_map k bs : forall l, blocks k bs (map f l) = map (map f) (blocks k bs l).
Proof.
  induction k as [|k IH]; intros l; cbn [blocks]; auto. rewrite map_length.
  destruct (Nat.ltb _ _); auto. cbn [map]. rewrite firstn_map, skipn_map, IH. reflexivity.
Qed.
Lemma merge_pass_map n : forall bl, (length bl <= n)%nat ->
  merge_pass less (map (map f) bl) = map (map f) (merge_pass lift bl).
Proof.
  induction n as [|n IH]; intros bl Hn; [destruct bl; [reflexivity|cbn in Hn; lia]|].
  destruct bl as [|x [|y t]]; auto. cbn [map merge_pass]. rewrite IH by (cbn in Hn; lia). f_equal.
  destruct y as [|y0 y']; auto. cbn [map]. rewrite <- (sym_merge_map _ x (y0 :: y')).
  cbn [map length]. rewrite !map_length. reflexivity.
Qed.
Lemma merge_all_map k : forall bl, merge_all less k (map (map f) bl) = map f (merge_all lift k bl).
Proof.
  induction k as [|k IH]; intros bl; cbn [merge_all]; [rewrite concat_map; reflexivity|].
  destruct bl as [|x [|y t]]; auto.
  rewrite <- IH, <- (merge_pass_map _ (x :: y :: t) (le_n _)). reflexivity.
Qed.
Lemma go_stable_map l : go_stable less (map f l) = map f (go_stable lift l).
Proof.
  unfold go_stable. rewrite map_length, blocks_map, map_map, <- merge_all_map, map_map.
  f_equal. apply map_ext. intros x. apply insertion_sort_map.
Qed.
End Map.

(** Numbering the elements. *)
Fixpoint number {A} (i : nat) (l : list A) : list (A * nat) :=
  match l with [] => [] | x :: t => (x, i) :: number (S i) t end.
Lemma number_fst {A} (l : list A) : forall i, map fst (number i l) = l.
Proof. induction l; intros i; cbn; f_equal; auto. Qed.
Lemma number_ge {A} (l : list A) : forall i x k, In (x, k) (number i l) -> (i <= k)%nat.
Proof.
  induction l as [|a l IH]; intros i x k; cbn; [tauto|]. intros [[= <- <-]|I]; [lia|].
  apply IH in I. lia.
Qed.
Lemma number_in {A} (l : list A) : forall i x k, In (x, k) (number i l) -> In x l.
Proof.
  intros i x k I. apply (in_map fst) in I. rewrite number_fst in I. exact I.
Qed.
Lemma number_fop {A} (l : list A) (R : A * nat -> A * nat -> Prop) : forall i,
  (forall x y k h, In x l -> In y l -> (k < h)%nat -> R (x, k) (y, h)) -> fop R (number i l).
Proof.
  induction l as [|a l IH]; intros i H; cbn [number]; constructor.
  - intros [y h] I. pose proof (number_ge _ _ _ _ I). apply number_in in I. apply H; [left|right|lia]; auto.
  - apply IH. intros; apply H; auto; right; auto.
Qed.

(** The stable sorting theorem: for a comparison that is the strict part of a
    total preorder on the members of the list, the result is the list sorted by
    (preorder, original index). *)
Theorem go_stable_stable {A} (less : A -> A -> bool) (l : list A)
  (lt_trans : forall x y z, In x l -> In y l -> In z l -> less x y = true -> less y z = true -> less x z = true)
  (nlt_trans : forall x y z, In x l -> In y l -> In z l -> less x y = false -> less y z = false -> less x z = false)
  (irrefl : forall x y, In x l -> In y l -> less x y = true -> less y x = false) :
  exists l', go_stable less l = map fst l' /\ Permutation l' (number 0 l) /\
    StronglySorted (fun x y => less (fst x) (fst y) = true \/
                               less (fst x) (fst y) = false /\ less (fst y) (fst x) = false /\ (snd x < snd y)%nat) l'.
Proof.
  pose (le := fun x y : A * nat => (In (fst x) l /\ In (fst y) l) /\
    (less (fst x) (fst y) = true \/
     less (fst x) (fst y) = false /\ less (fst y) (fst x) = false /\ (snd x < snd y)%nat)).
  assert (TR : forall x y z, le x y -> le y z -> le x z).
  { intros [x i] [y j] [z k]. unfold le. cbn [fst snd]. intros [[Ix Iy] H1] [[_ Iz] H2]. split; [auto|].
    destruct H1 as [H1|(H1 & H1' & L1)], H2 as [H2|(H2 & H2' & L2)].
    - left. eauto.
    - left. destruct (less x z) eqn:E; auto. exfalso.
      pose proof (nlt_trans x z y Ix Iz Iy E H2'). congruence.
    - left. destruct (less x z) eqn:E; auto. exfalso.
      pose proof (nlt_trans y x z Iy Ix Iz H1' E). congruence.
    - right. repeat split; [eapply (nlt_trans x y z); eauto|eapply (nlt_trans z y x); eauto|lia]. }
  destruct (go_stable_spec (lift fst less) le TR (number 0 l)) as [S P].
  { apply number_fop. intros x y k h Ix Iy Hk. unfold fits_pair, lift, le. cbn [fst snd]. split.
    - intros E. split; auto.
    - intros E. split; [auto|]. destruct (less x y) eqn:E'; auto. }
  exists (go_stable (lift fst less) (number 0 l)). split; [|split; auto].
  - rewrite <- go_stable_map, number_fst. reflexivity.
  - clear -S. induction S as [|x t S IH F]; constructor; auto.
    eapply Forall_impl; [|exact F]. intros y [_ H]. exact H.
Qed.

(* --------------------------------------------------- ties keep (or swap) order *)

Lemma sorted_unique {A} (R : A -> A -> Prop) (asym : forall x y, R x y -> R y x -> False) :
  forall l l', StronglySorted R l -> StronglySorted R l' -> Permutation l l' -> l = l'.
Proof.
  induction l as [|x l IH]; intros l' S S' P.
  - apply Permutation_nil in P. auto.
  - destruct l' as [|y l']; [apply Permutation_sym, Permutation_nil in P; discriminate|].
    inversion S as [|? ? Sl Fl]; subst. inversion S' as [|? ? Sl' Fl']; subst.
    rewrite Forall_forall in Fl, Fl'.
    assert (E : x = y).
    { assert (I : In x (y :: l')) by (apply (Permutation_in _ P); left; auto).
      assert (J : In y (x :: l)) by (apply (Permutation_in _ (Permutation_sym P)); left; auto).
      destruct I as [->|I]; auto. destruct J as [->|J]; auto.
      exfalso. apply (asym x y); auto. }
    subst y. f_equal. apply IH; auto. apply Permutation_cons_inv in P. exact P.
Qed.

Lemma sorted_filter {A} (R : A -> A -> Prop) p l : StronglySorted R l -> StronglySorted R (filter p l).
Proof.
  induction 1 as [|x l S IH F]; cbn [filter]; [constructor|]. destruct (p x); auto. constructor; auto.
  rewrite Forall_forall in *. intros y I. apply filter_In in I. apply F, I.
Qed.
Lemma perm_filter {A} p (l l' : list A) : Permutation l l' -> Permutation (filter p l) (filter p l').
Proof.
  induction 1 as [|x l l' P IH|x y l|l l2 l3 P1 IH1 P2 IH2]; cbn [filter].
  - constructor.
  - destruct (p x); auto.
  - destruct (p x), (p y); auto; try apply Permutation_refl. constructor.
  - eapply Permutation_trans; eauto.
Qed.
Lemma sorted_impl {A} (R R' : A -> A -> Prop) l :
  (forall x y, In x l -> In y l -> R x y -> R' x y) -> StronglySorted R l -> StronglySorted R' l.
Proof.
  intros H S. induction S as [|x l S IH F]; constructor.
  - apply IH. intros; apply H; auto; right; auto.
  - rewrite Forall_forall in *. intros y I. apply H; [left|right|]; auto.
Qed.
Lemma map_filter_fst {A B} (p : A -> bool) (l : list (A * B)) :
  map fst (filter (fun x => p (fst x)) l) = filter p (map fst l).
Proof. induction l as [|[a b] l IH]; cbn; auto. destruct (p a); cbn; rewrite IH; reflexivity. Qed.
Lemma number_sorted {A} (l : list A) : forall i, StronglySorted (fun x y => (snd x < snd y)%nat) (number i l).
Proof.
  induction l as [|a l IH]; intros i; cbn [number]; constructor; auto.
  rewrite Forall_forall. intros [y k] I. apply number_ge in I. cbn. lia.
Qed.
Lemma sorted_rev {A} (R : A -> A -> Prop) l : StronglySorted R l -> StronglySorted (fun x y => R y x) (rev l).
Proof.
  induction 1 as [|x l S IH F]; cbn [rev]; [constructor|].
  apply (sorted_app (fun x y => R y x)). split; [exact IH|]. split; [repeat constructor|].
  intros a b I [<-|[]]. rewrite Forall_forall in F. apply F, in_rev, I.
Qed.

Lemma ties_keep {A} (l : list A) (l' : list (A * nat)) (p : A -> bool) :
  Permutation l' (number 0 l) ->
  StronglySorted (fun x y => p (fst x) = true -> p (fst y) = true -> (snd x < snd y)%nat) l' ->
  filter p (map fst l') = filter p l.
Proof.
  intros P S. rewrite <- map_filter_fst. rewrite <- (number_fst l 0) at 1. rewrite <- map_filter_fst. f_equal.
  apply (sorted_unique (fun x y : A * nat => (snd x < snd y)%nat)).
  - intros; lia.
  - eapply sorted_impl; [|apply sorted_filter; exact S]. cbn beta.
    intros x y I J H. apply filter_In in I, J. apply H; tauto.
  - apply sorted_filter, number_sorted.
  - apply perm_filter, P.
Qed.
Lemma ties_swap {A} (l : list A) (l' : list (A * nat)) (p : A -> bool) :
  Permutation l' (number 0 l) ->
  StronglySorted (fun x y => p (fst x) = true -> p (fst y) = true -> (snd y < snd x)%nat) l' ->
  filter p (map fst l') = rev (filter p l).
Proof.
  intros P S. rewrite <- map_filter_fst. rewrite <- (number_fst l 0) at 1. rewrite <- map_filter_fst.
  rewrite <- map_rev. f_equal.
  apply (sorted_unique (fun x y : A * nat => (snd y < snd x)%nat)).
  - intros; lia.
  - eapply sorted_impl; [|apply sorted_filter; exact S]. cbn beta.
    intros x y I J H. apply filter_In in I, J. apply H; tauto.
  - apply (sorted_rev (fun x y : A * nat => (snd x < snd y)%nat)). apply sorted_filter, number_sorted.
  - eapply Permutation_trans; [apply perm_filter, P|]. apply Permutation_rev.
Qed.
