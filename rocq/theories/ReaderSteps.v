(** ReaderSteps.v - what each combinator does, in terms of what its sub readers do
    (C39-C42, C44, C47, C48). *)
From Verif Require Export ReaderTrans.
From Coq Require Import Lia ZifyBool.

(* ------------------------------------------------- running with any fuel *)

Definition mono {A} (f : nat -> M A) : Prop := forall n1 n2, (n1 <= n2)%nat -> fle (f n1) (f n2).
Definition ev {A} (f : nat -> M A) (s : st) (x : A) (s' : st) : Prop := exists n, f n s = Ok (x, s').

Lemma ev_up {A} (f : nat -> M A) n m s o : mono f -> (n <= m)%nat -> f n s = Ok o -> f m s = Ok o.
Proof. intros M H E. destruct (M n m H s) as [X|X]; congruence. Qed.
Lemma mono_const {A} (m : M A) : mono (fun _ => m).
Proof. intros n1 n2 _. apply fle_refl. Qed.
Lemma mono_bind {A B} (f : nat -> M A) (g : A -> nat -> M B) : mono f -> (forall x, mono (g x)) ->
  mono (fun n => bind (f n) (fun x => g x n)).
Proof. intros Hf Hg n1 n2 H. apply fle_bind; [apply Hf; auto|intros x; apply Hg; auto]. Qed.
Lemma mono_S {A} (f : nat -> M A) : mono f -> mono (fun n => f (S n)).
Proof. intros H n1 n2 L. apply H. lia. Qed.
Lemma ev_const {A} (m : M A) s x s' : ev (fun _ => m) s x s' <-> m s = Ok (x, s').
Proof. split; [intros [n H]; auto|intros H; exists 0%nat; auto]. Qed.
Lemma ev_bind {A B} (f : nat -> M A) (g : A -> nat -> M B) s y s' : mono f -> (forall x, mono (g x)) ->
  (ev (fun n => bind (f n) (fun x => g x n)) s y s' <-> exists x s1, ev f s x s1 /\ ev (g x) s1 y s').
Proof.
  intros Hf Hg. split.
  - intros [n H]. apply bind_inv in H as (x & s1 & H1 & H2). exists x, s1. split; exists n; auto.
  - intros (x & s1 & [n H1] & [m H2]). exists (n + m)%nat. unfold bind.
    rewrite (ev_up f n (n + m) _ _ Hf ltac:(lia) H1). apply (ev_up (g x) m); auto. lia.
Qed.
Lemma ev_S {A} (f : nat -> M A) s x s' : mono f -> (ev (fun n => f (S n)) s x s' <-> ev f s x s').
Proof.
  intros H. split; intros [n E]; [exists (S n); auto|]. exists n. apply (ev_up f n); auto.
Qed.
Lemma ev_ext {A} (f g : nat -> M A) s x s' : (forall n, f n = g n) -> ev f s x s' -> ev g s x s'.
Proof. intros H [n E]. exists n. rewrite <- H. auto. Qed.

Section Steps.
Context {L : GoLib} (e : env).
Local Notation rd r := (fun n => read n e r).

Lemma mono_read r : mono (rd r).
Proof. intros n1 n2 H. apply read_fle; auto. Qed.
Lemma mono_reads rs n1 n2 : (n1 <= n2)%nat -> Forall2 fle (map (read n1 e) rs) (map (read n2 e) rs).
Proof. intros H. induction rs; constructor; auto. apply read_fle; auto. Qed.
Lemma reads_ev r s x s' : reads e r s x s' <-> ev (rd r) s x s'.
Proof. reflexivity. Qed.
Lemma reads_unfold r s x s' : reads e r s x s' <-> ev (fun n => read (S n) e r) s x s'.
Proof. rewrite reads_ev. symmetry. apply (ev_S (rd r)). apply mono_read. Qed.

Lemma mark_ok s : mark s = Ok (pos (sc s), s).
Proof. reflexivity. Qed.
Lemma ev_mark {B} (g : Z -> nat -> M B) s y s' : (forall x, mono (g x)) ->
  (ev (fun n => bind mark (fun x => g x n)) s y s' <-> ev (g (pos (sc s))) s y s').
Proof.
  intros H. (eapply iff_trans; [apply (ev_bind (fun _ => mark) g); (auto; apply mono_const)|cbv beta]). split.
  - intros (x & s1 & H1 & H2). apply ev_const in H1. injection H1 as <- <-. auto.
  - intros H1. exists (pos (sc s)), s. split; auto. apply ev_const. reflexivity.
Qed.

(* ------------------------------------------------------- Named, Rule, Opt *)

Lemma named_reads w r s x s' : reads e (RNamed w r) s x s' <-> reads e r s x s'.
Proof. rewrite reads_unfold. cbn [read]. reflexivity. Qed.
Lemma rule_reads i r s x s' : r_reader (get_rule e i) = Some r -> (reads e (RRule i) s x s' <-> reads e r s x s').
Proof. intros H. rewrite reads_unfold. cbn [read]. rewrite H. reflexivity. Qed.
Lemma opt_reads r s x s' : reads e (ROpt r) s x s' <-> x = None /\ exists y, reads e r s y s'.
Proof.
  rewrite reads_unfold. cbn [read]. (eapply iff_trans; [apply (ev_bind (rd r) (fun _ _ => ret None)); (intros; try apply mono_read; apply mono_const)|cbv beta]).
  split.
  - intros (y & s1 & H1 & H2). apply ev_const in H2. injection H2 as <- <-. split; auto. exists y. auto.
  - intros [-> [y H]]. exists y, s'. split; auto. apply ev_const. reflexivity.
Qed.
Lemma rule_name_reads r s x s' : reads e (RRuleName r) s x s' <->
  exists y, reads e r s y s' /\ x = match y with None => None | Some _ => Some (EReadError (pos (sc s')) (lit "rulename")) end.
Proof.
  rewrite reads_unfold. cbn [read].
  (eapply iff_trans; [apply (ev_bind (rd r) (fun x _ => error_if_false (match x with None => true | Some _ => false end) (what e (RRuleName r)))); (intros; try apply mono_read; apply mono_const)|cbv beta]).
  split.
  - intros (y & s1 & H1 & H2). apply ev_const in H2. exists y. destruct y; cbn in H2; injection H2 as <- <-; auto.
  - intros (y & H & ->). exists y, s'. split; auto. apply ev_const. destruct y; reflexivity.
Qed.
Lemma named_hangs w r s : hangs e (RNamed w r) s <-> hangs e r s.
Proof. split; intros H n; [apply (H (S n))|]. destruct n; [reflexivity|]. apply H. Qed.
Lemma rule_hangs i r s : r_reader (get_rule e i) = Some r -> (hangs e (RRule i) s <-> hangs e r s).
Proof.
  intros E. split; intros H n; [specialize (H (S n))|]; [cbn [read] in H; rewrite E in H; auto|].
  destruct n; [reflexivity|]. cbn [read]. rewrite E. apply H.
Qed.

(* ------------------------------------------------------------- At and Not *)

Lemma at_reads r s x s' : 0 <= pos (sc s) -> (reads e (RAt r) s x s' <->
  exists s1, reads e r s x s1 /\ s' = moveto (pos (sc s)) s1).
Proof.
  intros P. rewrite reads_unfold. cbn [read].
  (eapply iff_trans; [apply (ev_mark (fun m n => let* x := rd r n in to_marker m ;; ret x))|cbv beta]).
  1:{ intros m. apply (mono_bind (rd r) (fun x _ => to_marker m ;; ret x)); intros; [apply mono_read|apply mono_const]. }
  (eapply iff_trans; [apply (ev_bind (rd r) (fun x _ => to_marker _ ;; ret x)); (intros; try apply mono_read; apply mono_const)|cbv beta]).
  split.
  - intros (y & s1 & H1 & H2). apply ev_const in H2. unfold bind in H2. rewrite to_marker_nonneg in H2 by auto. injection H2 as <- <-. exists s1; auto.
  - intros (s1 & H & ->). exists x, s1. split; auto. apply ev_const. unfold bind. rewrite to_marker_nonneg by auto. reflexivity.
Qed.
Lemma not_reads r s x s' : 0 <= pos (sc s) -> (reads e (RNot r) s x s' <->
  (exists s1, reads e r s None s1 /\ s' = moveto (pos (sc s)) s1 /\ x = Some (EReadError (pos (sc s)) (what e r))) \/
  (exists y s1 ok, reads e r s (Some y) s1 /\ move_runes 1 (moveto (pos (sc s)) s1) = Ok (ok, s') /\ x = None)).
Proof.
  intros P. rewrite reads_unfold. cbn [read].
  set (k := fun (m : Z) (x : option err) => to_marker m ;; match x with None => error_for (what e r) | Some _ => move_runes 1 ;; ret None end).
  (eapply iff_trans; [apply (ev_mark (fun m n => let* x := rd r n in k m x))|cbv beta]).
  1:{ intros m. apply (mono_bind (rd r) (fun x _ => k m x)); intros; [apply mono_read|apply mono_const]. }
  (eapply iff_trans; [apply (ev_bind (rd r) (fun x _ => k _ x)); (intros; try apply mono_read; apply mono_const)|cbv beta]).
  split.
  - intros (y & s1 & H1 & H2). apply ev_const in H2. unfold k in H2. apply bind_inv in H2 as (b & s2 & H2 & H3).
    rewrite to_marker_nonneg in H2 by auto. injection H2 as <- <-. destruct y as [y|].
    + right. apply bind_inv in H3 as (ok & s3 & H3 & H4). injection H4 as <- <-. exists y, s1, ok. auto.
    + left. injection H3 as <- <-. exists s1. auto.
  - intros [(s1 & H & -> & ->)|(y & s1 & ok & H & H2 & ->)].
    + exists None, s1. split; auto. apply ev_const. unfold k, bind. rewrite to_marker_nonneg by auto. reflexivity.
    + exists (Some y), s1. split; auto. apply ev_const. unfold k, bind. rewrite to_marker_nonneg by auto. rewrite H2. reflexivity.
Qed.

(* ------------------------------------------------------------------- Any *)

(** The readers fail one after the other; [xs] are their errors. *)
Inductive fails : list reader -> st -> list err -> st -> Prop :=
| fails_nil s : fails [] s [] s
| fails_cons r rs s x s1 xs s2 : reads e r s (Some x) s1 -> fails rs s1 xs s2 -> fails (r :: rs) s (x :: xs) s2.

Lemma any_ev rs : forall m errs s x s', 0 <= m ->
  (ev (fun n => any_loop (map (read n e) rs) m errs) s x s' <->
   (x = None /\ exists rs1 r rs2 xs s1, rs = rs1 ++ r :: rs2 /\ fails rs1 s xs s1 /\ reads e r s1 None s') \/
   (exists xs s1, fails rs s xs s1 /\ s' = moveto m s1 /\ x = Some (get_deepest (errs ++ xs)))).
Proof.
  induction rs as [|r rs IH]; intros m errs s x s' Hm.
  - cbn [map any_loop]. (eapply iff_trans; [apply (ev_const (to_marker m ;; ret _))|cbv beta]). unfold bind. rewrite to_marker_nonneg by auto. cbn. split.
    + intros E. injection E as <- <-. right. exists [], s. rewrite app_nil_r. split; [constructor|auto].
    + intros [(-> & rs1 & r & rs2 & xs & s1 & E & _)|(xs & s1 & F & -> & ->)]; [destruct rs1; discriminate|].
      inversion F; subst. rewrite app_nil_r. reflexivity.
  - cbn [map any_loop].
    assert (Mn : forall y, mono (fun n => match y with None => ret None | Some x0 => any_loop (map (read n e) rs) m (errs ++ [x0]) end)).
    { intros [y|]; [|apply mono_const]. intros n1 n2 H. apply fle_any, mono_reads; auto. }
    (eapply iff_trans; [apply (ev_bind (rd r) (fun y n => match y with None => ret None | Some x0 => any_loop (map (read n e) rs) m (errs ++ [x0]) end)); (auto using mono_read)|cbv beta]).
    split.
    + intros (y & s1 & H1 & H2). destruct y as [y|].
      * apply IH in H2 as [(-> & rs1 & r' & rs2 & xs & s2 & -> & F & R)|(xs & s2 & F & -> & ->)]; auto.
        -- left. split; auto. exists (r :: rs1), r', rs2, (y :: xs), s2. split; auto. split; auto. econstructor; eauto.
        -- right. exists (y :: xs), s2. split; [econstructor; eauto|]. rewrite <- app_assoc. auto.
      * apply ev_const in H2. injection H2 as <- <-. left. split; auto. exists [], r, rs, [], s. split; auto. split; [constructor|auto].
    + intros [(-> & rs1 & r' & rs2 & xs & s2 & E & F & R)|(xs & s2 & F & -> & ->)].
      * destruct rs1 as [|r1 rs1]; injection E as -> ->.
        -- inversion F; subst. exists None, s'. split; auto. apply ev_const. reflexivity.
        -- inversion F; subst. exists (Some x), s1. split; auto. apply IH; auto. left. split; auto. exists rs1, r', rs2, xs0, s2. auto.
      * inversion F; subst. exists (Some x), s1. split; auto. apply IH; auto. right. exists xs0, s2. split; auto. split; auto.
        rewrite <- app_assoc. reflexivity.
Qed.
Lemma any_reads rs s x s' : 0 <= pos (sc s) -> (reads e (RAny rs) s x s' <->
  (x = None /\ exists rs1 r rs2 xs s1, rs = rs1 ++ r :: rs2 /\ fails rs1 s xs s1 /\ reads e r s1 None s') \/
  (exists xs s1, fails rs s xs s1 /\ s' = moveto (pos (sc s)) s1 /\ x = Some (get_deepest xs))).
Proof.
  intros P. rewrite reads_unfold. cbn [read]. (eapply iff_trans; [apply (ev_mark (fun m n => any_loop (map (read n e) rs) m []))|cbv beta]).
  - intros m n1 n2 H. apply fle_any, mono_reads; auto.
  - apply (any_ev rs _ []); auto.
Qed.

(** [y] is the ReadError of [xs] at the greatest position, the last one of these;
    without any (at a position >= 0) the zero ReadError. *)
Definition deepest_of (xs : list err) (y : err) : Prop :=
  (exists m w before after, y = EReadError m w /\ 0 <= m /\ xs = before ++ EReadError m w :: after /\
     (forall m' w', In (EReadError m' w') before -> m' <= m) /\ (forall m' w', In (EReadError m' w') after -> m' < m)) \/
  (y = EReadError 0 [] /\ forall m' w', In (EReadError m' w') xs -> m' < 0).
Lemma deepest_loop_spec xs : forall m w,
  (exists m1 w1 before after, deepest_loop xs m w = EReadError m1 w1 /\ m <= m1 /\ xs = before ++ EReadError m1 w1 :: after /\
     (forall m' w', In (EReadError m' w') before -> m' <= m1) /\ (forall m' w', In (EReadError m' w') after -> m' < m1)) \/
  (deepest_loop xs m w = EReadError m w /\ forall m' w', In (EReadError m' w') xs -> m' < m).
Proof.
  induction xs as [|[m0 w0|msg] xs IH]; intros m w; cbn [deepest_loop].
  - right. split; auto. intros ? ? [].
  - unfold err_later. destruct (m <=? m0) eqn:C.
    + destruct (IH m0 w0) as [(m1 & w1 & b & a & E & Hm & -> & B & A)|[E A]].
      * left. exists m1, w1, (EReadError m0 w0 :: b), a. split; auto. split; [lia|]. split; auto. split; auto.
        intros m' w' [X|X]; [injection X as <- <-; lia|eauto].
      * left. exists m0, w0, [], xs. split; auto. split; [lia|]. split; auto. split; [intros ? ? []|auto].
    + destruct (IH m w) as [(m1 & w1 & b & a & E & Hm & -> & B & A)|[E A]].
      * left. exists m1, w1, (EReadError m0 w0 :: b), a. split; auto. split; [lia|]. split; auto. split; auto.
        intros m' w' [X|X]; [injection X as <- <-; lia|eauto].
      * right. split; auto. intros m' w' [X|X]; [injection X as <- <-; lia|eauto].
  - destruct (IH m w) as [(m1 & w1 & b & a & E & Hm & -> & B & A)|[E A]].
    + left. exists m1, w1, (EOther msg :: b), a. split; auto. split; [lia|]. split; auto. split; auto.
      intros m' w' [X|X]; [discriminate|eauto].
    + right. split; auto. intros m' w' [X|X]; [discriminate|eauto].
Qed.
Lemma deepest_spec xs : deepest_of xs (get_deepest xs).
Proof.
  unfold get_deepest. destruct (deepest_loop_spec xs 0 []) as [(m1 & w1 & b & a & H)|H]; [left|right; auto].
  exists m1, w1, b, a. auto.
Qed.
Lemma deepest_unique xs y z : deepest_of xs y -> deepest_of xs z -> y = z.
Proof.
  intros [(m & w & b & a & -> & P & E & B & A)|[-> N]] [(m' & w' & b' & a' & -> & P' & E' & B' & A')|[-> N']].
  - rewrite E in E'. assert (m = m').
    { assert (X : In (EReadError m w) (b' ++ EReadError m' w' :: a')) by (rewrite <- E'; apply in_elt).
      assert (Y : In (EReadError m' w') (b ++ EReadError m w :: a)) by (rewrite E'; apply in_elt).
      apply in_app_iff in X as [X|[X|X]]; apply in_app_iff in Y as [Y|[Y|Y]];
        try (injection X as -> ->); try (injection Y as -> ->); auto;
        repeat match goal with H : In _ b' |- _ => apply B' in H | H : In _ a' |- _ => apply A' in H | H : In _ b |- _ => apply B in H | H : In _ a |- _ => apply A in H end; lia. }
    subst m'. clear P P' E. revert b b' a a' E' B A B' A'. induction b as [|x b IH]; intros [|x' b'] a a' E B A B' A'; cbn in E.
    + injection E as ->. auto.
    + injection E as <- E. exfalso. assert (X : In (EReadError m w') a) by (rewrite E; apply in_elt). apply A in X. lia.
    + injection E as <- E. exfalso. assert (X : In (EReadError m w) a') by (rewrite <- E; apply in_elt). apply A' in X. lia.
    + injection E as <- E. apply (IH b' a a'); auto; intros m' w0 H; [eapply B|eapply B']; right; eauto.
  - exfalso. assert (X : In (EReadError m w) xs) by (rewrite E; apply in_elt). apply N' in X. lia.
  - exfalso. assert (X : In (EReadError m' w') xs) by (rewrite E'; apply in_elt). apply N in X. lia.
  - auto.
Qed.

(* ------------------------------------------------------------ Seq, SkipSeq *)

(** The readers succeed one after the other. *)
Inductive succeeds : list reader -> st -> st -> Prop :=
| succ_nil s : succeeds [] s s
| succ_cons r rs s s1 s2 : reads e r s None s1 -> succeeds rs s1 s2 -> succeeds (r :: rs) s s2.

Lemma seq_ev rs : forall m s x s', 0 <= m ->
  (ev (fun n => seq_loop (map (read n e) rs) m) s x s' <->
   (x = None /\ succeeds rs s s') \/
   (exists rs1 r rs2 s1 s2 y, rs = rs1 ++ r :: rs2 /\ succeeds rs1 s s1 /\ reads e r s1 (Some y) s2 /\ s' = moveto m s2 /\ x = Some y)).
Proof.
  induction rs as [|r rs IH]; intros m s x s' Hm.
  - cbn [map seq_loop]. (eapply iff_trans; [apply (ev_const (ret None))|cbv beta]). split.
    + intros E. injection E as <- <-. left. split; auto. constructor.
    + intros [[-> S1]|(rs1 & r & rs2 & s1 & s2 & y & E & _)]; [inversion S1; subst; reflexivity|destruct rs1; discriminate].
  - cbn [map seq_loop].
    set (g := fun (y : option err) (n : nat) => match y with None => seq_loop (map (read n e) rs) m | Some x0 => to_marker m ;; ret (Some x0) end).
    assert (Mn : forall y, mono (g y)).
    { intros [y|]; [apply mono_const|]. intros n1 n2 H. apply fle_seq, mono_reads; auto. }
    (eapply iff_trans; [apply (ev_bind (rd r) g); (auto using mono_read)|cbv beta]).
    split.
    + intros (y & s1 & H1 & H2). destruct y as [y|].
      * apply ev_const in H2. unfold bind in H2. rewrite to_marker_nonneg in H2 by auto. injection H2 as <- <-.
        right. exists [], r, rs, s, s1, y. split; auto. split; [constructor|auto].
      * apply IH in H2 as [[-> S1]|(rs1 & r' & rs2 & s2 & s3 & z & -> & S1 & R & -> & ->)]; auto.
        -- left. split; auto. econstructor; eauto.
        -- right. exists (r :: rs1), r', rs2, s2, s3, z. split; auto. split; [econstructor; eauto|auto].
    + intros [[-> S1]|(rs1 & r' & rs2 & s2 & s3 & z & E & S1 & R & -> & ->)].
      * inversion S1; subst. exists None, s1. split; auto. apply IH; auto.
      * destruct rs1 as [|r1 rs1]; injection E as -> ->.
        -- inversion S1; subst. exists (Some z), s3. split; auto. apply ev_const. unfold bind. rewrite to_marker_nonneg by auto. reflexivity.
        -- inversion S1; subst. exists None, s1. split; auto. apply IH; auto. right. exists rs1, r', rs2, s2, s3, z. auto.
Qed.
Lemma seq_reads rs s x s' : 0 <= pos (sc s) -> (reads e (RSeq rs) s x s' <->
  (x = None /\ succeeds rs s s') \/
  (exists rs1 r rs2 s1 s2 y, rs = rs1 ++ r :: rs2 /\ succeeds rs1 s s1 /\ reads e r s1 (Some y) s2 /\
     s' = moveto (pos (sc s)) s2 /\ x = Some y)).
Proof.
  intros P. rewrite reads_unfold. cbn [read]. (eapply iff_trans; [apply (ev_mark (fun m n => seq_loop (map (read n e) rs) m))|cbv beta]).
  - intros m n1 n2 H. apply fle_seq, mono_reads; auto.
  - apply seq_ev; auto.
Qed.

(** SkipSeq is a Seq with [skip] in front of and behind every reader. *)
Fixpoint interleave (skip : reader) (rs : list reader) : list reader :=
  match rs with
  | [] => [skip]
  | r :: t => skip :: r :: interleave skip t
  end.
Lemma bind_run {A B} (m : M A) (k : A -> M B) s :
  bind m k s = match m s with Ok (x, s') => k x s' | Panic => Panic | Fuel => Fuel end.
Proof. reflexivity. Qed.
Lemma skip_loop_run skip m rds : forall x s,
  bind (skip_loop skip rds x) (fun y => match y with None => ret None | Some z => to_marker m ;; ret (Some z) end) s =
  match x with None => seq_loop (flat_map (fun rd => [rd; skip]) rds) m s | Some z => (to_marker m ;; ret (Some z)) s end.
Proof.
  induction rds as [|rd rds IH]; intros x s; cbn [skip_loop flat_map app seq_loop].
  - destruct x; reflexivity.
  - destruct x as [x|]; [reflexivity|]. rewrite !bind_run. destruct (rd s) as [[y s1]| |]; auto. destruct y as [y|].
    + pose proof (IH (Some y) s1) as X. rewrite bind_run in X. exact X.
    + rewrite !bind_run. destruct (skip s1) as [[z s2]| |]; auto. specialize (IH z s2). rewrite bind_run in IH. rewrite IH.
      destruct z; reflexivity.
Qed.
Lemma skip_seq_run skip rds m s :
  (let* x := skip in let* y := skip_loop skip rds x in match y with None => ret None | Some z => to_marker m ;; ret (Some z) end) s =
  seq_loop (skip :: flat_map (fun rd => [rd; skip]) rds) m s.
Proof.
  cbn [seq_loop]. rewrite !bind_run. destruct (skip s) as [[x s1]| |]; auto. rewrite skip_loop_run. destruct x; reflexivity.
Qed.
Lemma interleave_flat skip rs : interleave skip rs = skip :: flat_map (fun r => [r; skip]) rs.
Proof. induction rs as [|r rs IH]; cbn; [auto|]. rewrite IH. reflexivity. Qed.
Lemma skip_seq_read n skip rs s : read (S n) e (RSkipSeq skip rs) s = read (S n) e (RSeq (interleave skip rs)) s.
Proof.
  cbn [read]. unfold skip_seq. rewrite bind_run, (bind_run mark). cbn [mark gets]. rewrite skip_seq_run, interleave_flat. cbn [map].
  assert (X : flat_map (fun rd => [rd; read n e skip]) (map (read n e) rs) = map (read n e) (flat_map (fun r => [r; skip]) rs)).
  { induction rs as [|r rs IH]; cbn; [auto|]. rewrite IH. reflexivity. }
  rewrite X. reflexivity.
Qed.
Lemma skip_seq_reads skip rs s x s' : reads e (RSkipSeq skip rs) s x s' <-> reads e (RSeq (interleave skip rs)) s x s'.
Proof.
  rewrite !reads_unfold. split; intros [n H]; exists n; [rewrite <- skip_seq_read|rewrite skip_seq_read]; auto.
Qed.

(* ------------------------------------------------------- Zom, Many, Times *)

(** [k] successful reads in a row. *)
Inductive iter (r : reader) : nat -> st -> st -> Prop :=
| iter_0 s : iter r 0 s s
| iter_S k s s1 s2 : reads e r s None s1 -> iter r k s1 s2 -> iter r (S k) s s2.

Lemma mono_rep r : mono (fun n => rep_loop n (read n e r)).
Proof. intros n1 n2 H. apply fle_rep; auto. apply read_fle; auto. Qed.
Lemma rep_ev r s x s' : ev (fun n => rep_loop n (read n e r)) s x s' <->
  exists k s1 y, iter r k s s1 /\ reads e r s1 (Some y) s'.
Proof.
  split.
  - intros [n H].
    assert (G : forall k m, rep_loop k (read m e r) s = Ok (x, s') -> exists k s1 y, iter r k s s1 /\ reads e r s1 (Some y) s').
    { clear H n. intros k m. revert s. induction k as [|k IH]; intros s H; [discriminate|]. cbn [rep_loop] in H.
      apply bind_inv in H as (y & s1 & H1 & H2). destruct y as [y|].
      - injection H2 as _ <-. exists 0%nat, s, y. split; [constructor|exists m; auto].
      - apply IH in H2 as (k' & s2 & y & I1 & R). exists (S k'), s2, y. split; auto. econstructor; eauto. exists m; auto. }
    eapply G; eauto.
  - intros (k & s1 & y & I1 & R). destruct x. induction I1 as [s|k s s1 s2 R1 I1 IH].
    + destruct R as [n R]. exists (S n). cbn [rep_loop]. unfold bind. rewrite (ev_up (rd r) n (S n) _ _ (mono_read r) ltac:(lia) R). reflexivity.
    + destruct (IH R) as [n E], R1 as [m R1]. exists (S (n + m)). cbn [rep_loop]. unfold bind.
      rewrite (ev_up (rd r) m (S (n + m)) _ _ (mono_read r) ltac:(lia) R1).
      assert (F : fle (rep_loop n (read n e r)) (rep_loop (n + m) (read (S (n + m)) e r))).
      { apply fle_rep; [lia|]. apply read_fle. lia. }
      destruct (F s1) as [X|X]; congruence.
Qed.
Lemma zom_reads r s x s' : reads e (RZom r) s x s' <->
  x = None /\ exists k s1 y, iter r k s s1 /\ reads e r s1 (Some y) s'.
Proof.
  rewrite reads_unfold. cbn [read].
  (eapply iff_trans; [apply (ev_bind (fun n => rep_loop n (read n e r)) (fun _ _ => ret None)); (intros; try apply mono_rep; apply mono_const)|cbv beta]).
  split.
  - intros (y & s1 & H1 & H2). apply ev_const in H2. injection H2 as <- <-. split; auto. apply rep_ev in H1; auto.
  - intros [-> H]. exists tt, s'. split; [apply rep_ev; auto|]. apply ev_const. reflexivity.
Qed.
Lemma many_reads r s x s' : reads e (RMany r) s x s' <->
  exists k s1 y, iter r k s s1 /\ reads e r s1 (Some y) s' /\
    x = if pos (sc s) <? pos (sc s') then None else Some (EReadError (pos (sc s')) (what e (RMany r))).
Proof.
  rewrite reads_unfold. cbn [read].
  set (k0 := fun a => let* b := mark in error_if_false (a <? b) (what e (RMany r))).
  (eapply iff_trans; [apply (ev_mark (fun a n => rep_loop n (read n e r) ;; k0 a))|cbv beta]).
  1:{ intros a. apply (mono_bind (fun n => rep_loop n (read n e r)) (fun _ _ => k0 a)); intros; [apply mono_rep|apply mono_const]. }
  (eapply iff_trans; [apply (ev_bind (fun n => rep_loop n (read n e r)) (fun _ _ => k0 _)); (intros; try apply mono_rep; apply mono_const)|cbv beta]).
  split.
  - intros (y & s1 & H1 & H2). apply ev_const in H2. apply rep_ev in H1 as (k & s2 & z & I1 & R). exists k, s2, z.
    unfold k0, bind, mark, gets in H2. destruct (pos (sc s) <? pos (sc s1)) eqn:C; cbn in H2; injection H2 as <- <-; rewrite C; auto.
  - intros (k & s2 & z & I1 & R & ->). exists tt, s'. split; [apply rep_ev; eauto|]. apply ev_const.
    unfold k0, bind, mark, gets. destruct (pos (sc s) <? pos (sc s')); reflexivity.
Qed.
Lemma times_ev r k : forall s x s', ev (fun n => times_loop k (read n e r)) s x s' <->
  (x = None /\ iter r k s s') \/ (exists j s1 y, (j < k)%nat /\ iter r j s s1 /\ reads e r s1 (Some y) s' /\ x = Some y).
Proof.
  induction k as [|k IH]; intros s x s'; cbn [times_loop].
  - (eapply iff_trans; [apply (ev_const (ret None))|cbv beta]). split.
    + intros E. injection E as <- <-. left. split; auto. constructor.
    + intros [[-> I1]|(j & s1 & y & J & _)]; [inversion I1; reflexivity|lia].
  - set (g := fun (y : option err) (n : nat) => match y with None => times_loop k (read n e r) | Some x0 => ret (Some x0) end).
    (eapply iff_trans; [apply (ev_bind (rd r) g)|cbv beta]).
    1:apply mono_read.
    1:{ intros [y|]; [apply mono_const|]. intros n1 n2 H. apply fle_times, read_fle; auto. }
    split.
    + intros (y & s1 & H1 & H2). destruct y as [y|].
      * apply ev_const in H2. injection H2 as <- <-. right. exists 0%nat, s, y. split; [lia|]. split; [constructor|auto].
      * apply IH in H2 as [[-> I1]|(j & s2 & y & J & I1 & R & ->)].
        -- left. split; auto. econstructor; eauto.
        -- right. exists (S j), s2, y. split; [lia|]. split; [econstructor; eauto|auto].
    + intros [[-> I1]|(j & s2 & y & J & I1 & R & ->)].
      * inversion I1; subst. exists None, s1. split; auto. apply IH. auto.
      * destruct j as [|j]; inversion I1; subst.
        -- exists (Some y), s'. split; auto. apply ev_const. reflexivity.
        -- exists None, s1. split; auto. apply IH. right. exists j, s2, y. split; [lia|auto].
Qed.
(** Times: all rounds, or stops where a round failed - without going back. *)
Lemma times_reads k r s x s' : reads e (RTimes k r) s x s' <->
  (x = None /\ iter r (Z.to_nat k) s s') \/
  (exists j s1 y, (j < Z.to_nat k)%nat /\ iter r j s s1 /\ reads e r s1 (Some y) s' /\ x = Some y).
Proof. rewrite reads_unfold. cbn [read]. apply times_ev. Qed.

(* ------------------------------------------------------------------- hangs *)

Lemma rep_hangs (X : st -> Prop) r : (forall s, X s -> exists s', reads e r s None s' /\ X s') ->
  forall s, X s -> forall k m, rep_loop k (read m e r) s = Fuel.
Proof.
  intros H s Xs k m. revert s Xs. induction k as [|k IH]; intros s Xs; [reflexivity|]. cbn [rep_loop]. unfold bind.
  destruct (H s Xs) as (s' & [j R] & Xs').
  destruct (read m e r s) as [[x s1]| |] eqn:E; auto.
  - assert (Y : Ok (x, s1) = Ok (None, s')) by (eapply read_agree; eauto; discriminate). injection Y as -> ->. auto.
  - exfalso. assert (Y : Panic = Ok (None (A:=err), s')) by (eapply read_agree; eauto; discriminate). discriminate.
Qed.
Lemma zom_hangs (X : st -> Prop) r : (forall s, X s -> exists s', reads e r s None s' /\ X s') ->
  forall s, X s -> hangs e (RZom r) s /\ hangs e (RMany r) s.
Proof.
  intros H s Xs. split; intros [|n]; try reflexivity; cbn [read]; unfold bind, mark, gets;
    rewrite (rep_hangs X r H s Xs n n); reflexivity.
Qed.

(* ------------------------------------------------------------------- Janus *)

Lemma janus_beg_reads c w r s x s' : in_text s -> rall no_wrap r = true -> eall no_wrap e ->
  (reads e (RJanusBeg c w r) s x s' <->
   (exists s1, reads e r s None s1 /\ x = None /\
      s' = with_heap (put_cell c (slice (full (sc s)) (pos (sc s)) (pos (sc s1))) (hp s1)) s1) \/
   (exists y s1, reads e r s (Some y) s1 /\ x = Some y /\ s' = moveto (pos (sc s)) s1)).
Proof.
  intros I W We. rewrite reads_unfold. cbn [read].
  assert (F : forall n, (let* te := tokenize_use (read n e r) in
        match snd te with
        | None => let* str := get_tok (fst te) in modh (put_cell c str) ;; ret None
        | Some x => ret (Some x)
        end) s = match read n e r s with
    | Ok (None, s1) => Ok (None, with_heap (put_cell c (slice (full (sc s)) (pos (sc s)) (pos (sc s1))) (hp s1)) s1)
    | Ok (Some y, s1) => Ok (Some y, moveto (pos (sc s)) s1)
    | Panic => Panic | Fuel => Fuel end).
  { intros n. unfold tokenize_use, mark, gets, bind. destruct (read n e r s) as [[[y|] s1]| |] eqn:E; auto.
    - rewrite to_marker_nonneg by (destruct I; lia). reflexivity.
    - destruct (read_okfw e We n r W s None s1 I E) as ([I1 _] & F1 & _ & P). cbn [fst snd]. unfold make_token, get_tok.
      replace (pos (sc s1) <? pos (sc s)) with false by lia. unfold ret at 1. cbn [fst snd t_from t_to].
      replace ((0 <=? pos (sc s)) && (pos (sc s) <=? pos (sc s1)) && (pos (sc s1) <=? slen (full (sc s1)))) with true by (destruct I; lia).
      cbv iota. rewrite F1. reflexivity. }
  split.
  - intros [n H]. rewrite F in H. destruct (read n e r s) as [[[y|] s1]| |] eqn:E; try discriminate; injection H as <- <-.
    + right. exists y, s1. split; [exists n; auto|auto].
    + left. exists s1. split; [exists n; auto|auto].
  - intros [(s1 & [n H] & -> & ->)|(y & s1 & [n H] & -> & ->)]; exists n; rewrite F, H; auto.
Qed.
Lemma janus_end_reads c w s a b x s' : at_split s a b ->
  (reads e (RJanusEnd c w) s x s' <->
   (has_prefix b (get_cell c (hp s)) = true /\ x = None /\
      exists s1, s1 = moveto (pos (sc s) + slen (get_cell c (hp s))) s /\ s' = with_heap (put_cell c [] (hp s1)) s1) \/
   (has_prefix b (get_cell c (hp s)) = false /\ s' = s /\ x = Some (EReadError (pos (sc s)) (quote_str (get_cell c (hp s)))))).
Proof.
  intros H. rewrite reads_unfold. cbn [read]. (eapply iff_trans; [apply (ev_const (let* str := _ in _))|cbv beta]). unfold gets at 1, bind at 1.
  destruct (has_prefix b (get_cell c (hp s))) eqn:E.
  - pose proof E as E'. apply has_prefix_iff in E as [t ->]. pose proof (if_str_yes _ _ _ _ H) as Y. unfold yes_by in Y. unfold bind. rewrite Y.
    cbn. split.
    + intros X. injection X as <- <-. left. eauto.
    + intros [(_ & -> & s1 & -> & ->)|(X & _)]; [reflexivity|discriminate].
  - assert (Y : if_str (get_cell c (hp s)) s = Ok (false, s)).
    { unfold if_str. tail_of H. rewrite E. reflexivity. }
    unfold bind. rewrite Y. cbn. split.
    + intros X. injection X as <- <-. right. auto.
    + intros [(X & _)|(_ & -> & ->)]; [discriminate|reflexivity].
Qed.
End Steps.
