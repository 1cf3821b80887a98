(** CfgFacts.v - what a grammar reads is in its language. *)
From Verif Require Export SpecCfg MarksFacts TrackFacts.
From Coq Require Import Lia ZifyBool.

(** A repetition, an option or an alternative that fails leaves the position alone: no Times there. *)
Definition always (i : nat) : bool := true.
Definition steady (r : reader) : Prop :=
  match r with
  | RAny rs => Forall (fun a => restoring always a = true) rs
  | RZom a | RMany a | ROpt a => restoring always a = true
  | _ => True
  end.
Definition steadyb (r : reader) : bool :=
  match r with
  | RAny rs => forallb (restoring always) rs
  | RZom a | RMany a | ROpt a => restoring always a
  | _ => true
  end.
Lemma steady_check r : rall steadyb r = true -> rallP steady r.
Proof. intros H. apply rallP_rall in H. revert H. apply rallP_impl. intros []; cbn; auto. intros H. apply Forall_forall. apply forallb_forall. exact H. Qed.

Lemma same_end (u v t : bytes) : u ++ t = v ++ t -> u = v.
Proof. apply app_inv_tail. Qed.
Lemma step_short b v : b = v ++ snd (step b) -> (length v <= 4)%nat.
Proof.
  unfold step. intros E. destruct b as [|x b]; [apply (f_equal (@length byte)) in E; rewrite app_length in E; cbn in E; lia|].
  set (w := Z.to_nat (rune_len (fst (decode_rune (x :: b))))) in *. assert (B : (w <= 4)%nat) by (unfold w; generalize (fst (decode_rune (x :: b))); intros r; unfold rune_len; destruct (r <? 0), (r <=? 0x7F), (r <=? 0x7FF), ((0xD800 <=? r) && (r <=? 0xDFFF)), (r <=? 0xFFFF), (r <=? MaxRune); cbn; lia). clearbody w.
  destruct (Nat.leb w (length (x :: b))); cbn [snd] in E; apply (f_equal (@length byte)) in E; rewrite app_length in E; [rewrite skipn_length in E|]; lia.
Qed.
Section Settle.
Context (e : env) (Re : restores e).
Lemma eats_restore i c b ok c' b' : eats e i c b ok c' b' ->
  match i with IR r => restoring always r = true -> ok = false -> b' = b | ITimes k r => restoring always r = true -> ((k <= 1)%nat) -> ok = false -> b' = b | _ => True end.
Proof.
  induction 1; auto; cbn [restoring] in *; intros; subst; try discriminate; auto.
  - rewrite H1. reflexivity.
  - apply IHeats; auto. exact (Re _ _ H).
  - apply IHeats; auto. exact (Re _ _ H).
  - rewrite Bool.negb_false_iff in H1. subst. reflexivity.
  - apply Nat.ltb_ge in H1. destruct (eats_suffix _ _ _ _ _ _ _ H) as [d E]. rewrite E, app_length in H1. destruct d; [auto|cbn in H1; lia].
  - apply orb_true_iff in H0 as [Q|Q].
    + apply Z.leb_le in Q. replace (Z.to_nat k) with 0%nat in H by lia. inversion H.
    + apply andb_true_iff in Q as [Q1 Q2]. apply Z.eqb_eq in Q1. subst k. apply IHeats; auto.
  - assert (k = 0%nat) by lia. subst k. inversion H0.
Qed.
End Settle.

(** The language, with what else is known of the texts of repetitions. *)
Fixpoint glang (Q : reader -> bytes -> Prop) (I : nat -> bytes -> Prop) (r : reader) {struct r} : bytes -> Prop :=
  match r with
  | RAny rs => (fix any l := match l with [] => fun _ => False | x :: t => fun w => glang Q I x w \/ any t w end) rs
  | RSeq rs => (fix seq l := match l with [] => empty_of | x :: t => cat_of (glang Q I x) (seq t) end) rs
  | RSkipSeq sk rs => cat_of (glang Q I sk) ((fix seq l := match l with [] => empty_of | x :: t => cat_of (glang Q I x) (cat_of (glang Q I sk) (seq t)) end) rs)
  | RRule i | RGrammar _ _ i => I i
  | RLit x => fun w => w = x
  | RAt _ | RAtEnd => empty_of
  | RNot _ => fun w => (length w <= 4)%nat
  | ROpt a => fun w => w = [] \/ glang Q I a w
  | RZom a => fun w => star_of (glang Q I a) w /\ Q a w
  | RMany a => cat_of (glang Q I a) (star_of (glang Q I a))
  | RTimes n a => pow_of (Z.to_nat n) (glang Q I a)
  | RPast a => cat_of any_text (glang Q I a)
  | RTo _ => any_text
  | RBody d _ => glang Q I d
  | RBodyTail d t => cat_of (glang Q I d) (glang Q I t)
  | RJanusBeg _ _ a | RMap _ a | RNamed _ a | RPick _ _ a | RMonitor _ _ a | RRuleName a => glang Q I a
  | RJanusEnd _ _ => any_text
  | RInvalid _ => fun _ => False
  | RAnyRune _ | RBetween _ _ | RBetweenAny _ _ | RHoley _ _ _ | RMatch _ _ | RRune _ =>
      match rune_test r with Some f => rune_of f | None => any_text end
  | RFold _ | RBool _ _ | RInt _ _ _ | RUint _ _ _ | RWrap _ _ => any_text
  end.
Lemma star_mono (P P' : bytes -> Prop) w : (forall u, P u -> P' u) -> star_of P w -> star_of P' w.
Proof. intros H. induction 1; constructor; auto. Qed.
Lemma pow_mono k (P P' : bytes -> Prop) : (forall u, P u -> P' u) -> forall w, pow_of k P w -> pow_of k P' w.
Proof. intros H. induction k as [|k IH]; cbn; auto. intros w (u & v & -> & U & V). exists u, v. auto. Qed.
Lemma cat_mono (P P' R R' : bytes -> Prop) w : (forall u, P u -> P' u) -> (forall u, R u -> R' u) -> cat_of P R w -> cat_of P' R' w.
Proof. intros H1 H2 (u & v & -> & U & V). exists u, v. auto. Qed.
Lemma glang_lang Q I : forall r w, glang Q I r w -> lang I r w.
Proof.
  refine (reader_ind' _ _ _ _ _ _ _ _ _ _ _ _ _ _ _ _ _ _ _ _ _ _ _ _ _ _ _ _ _ _ _ _ _ _ _ _ _); intros; cbn [glang lang] in *; auto.
  all: try match goal with H : cat_of _ _ _ |- cat_of _ _ _ => revert H; apply cat_mono; auto end.
  - revert H0. induction H as [|x rs Hx F IH]; [intros []|]. intros [H1|H1]; [left; exact (Hx w H1)|right; exact (IH H1)].
  - revert w H0. induction H as [|x rs Hx F IH]; [intros w E; exact E|]. intros w. apply (cat_mono (glang Q I x) (lang I x)); [exact Hx|exact IH].
  - clear - H H0. induction H0 as [|x rs Hx F IH]; [intros w E; exact E|]. intros w. apply (cat_mono (glang Q I x) (lang I x)); [exact Hx|]. intros v. apply (cat_mono (glang Q I a) (lang I a)); [exact H|exact IH].
  - intros v. apply star_mono. auto.
  - destruct H0; auto.
  - revert H0. apply pow_mono. auto.
  - destruct H0 as [H0 _]. revert H0. apply star_mono. auto.
Qed.

Section Lang.
Context (Q : reader -> bytes -> Prop) (I : nat -> bytes -> Prop).
Definition all_of (rs : list reader) : bytes -> Prop := fold_right (fun x q => cat_of (glang Q I x) q) empty_of rs.
Definition ilang (i : item) (w : bytes) : Prop :=
  match i with
  | IR r => glang Q I r w
  | IAny rs => exists r, In r rs /\ glang Q I r w
  | ISeq rs => all_of rs w
  | IRep r => star_of (glang Q I r) w
  | ITimes k r => pow_of k (glang Q I r) w
  | IPast r => cat_of any_text (glang Q I r) w
  | ITo r => True
  | IBody _ k d t => if k then glang Q I d w else cat_of (glang Q I d) (glang Q I t) w
  end.
Lemma lang_any rs w : glang Q I (RAny rs) w <-> exists r, In r rs /\ glang Q I r w.
Proof.
  cbn [glang]. induction rs as [|r rs IH]; [split; [tauto|intros (r & [] & _)]|]. rewrite IH. split.
  - intros [H|(x & A & B)]; [exists r|exists x]; cbn; auto.
  - intros (x & [<-|A] & B); eauto.
Qed.
Lemma lang_seq rs w : glang Q I (RSeq rs) w <-> all_of rs w.
Proof. reflexivity. Qed.
Lemma lang_skip sk rs w : glang Q I (RSkipSeq sk rs) w <-> all_of (interleave sk rs) w.
Proof.
  rewrite interleave_flat. cbn [all_of fold_right glang].
  assert (X : forall v, (fix seq l := match l with [] => empty_of | x :: t => cat_of (glang Q I x) (cat_of (glang Q I sk) (seq t)) end) rs v <-> all_of (flat_map (fun r => [r; sk]) rs) v).
  { induction rs as [|r rs IH]; intros v; [reflexivity|]. cbn [flat_map app all_of fold_right]. unfold cat_of. split; intros (a & b & E & A & c & d & F & B & C); exists a, b; repeat split; auto; exists c, d; repeat split; auto; apply IH; auto. }
  unfold cat_of. split; intros (a & b & E & A & B); exists a, b; repeat split; auto; apply X; auto.
Qed.
Lemma star_snoc P w : star_of P w -> w <> [] -> cat_of P (star_of P) w.
Proof.
  induction 1; [congruence|]. intros _. exists u, v. auto.
Qed.

(** [P] holds for all readers in [i]. *)
Definition parts (P : reader -> Prop) (i : item) : Prop :=
  match i with
  | IR r | IRep r | ITimes _ r | IPast r | ITo r => rallP P r
  | IAny rs | ISeq rs => Forall (rallP P) rs
  | IBody _ _ d t => rallP P d /\ rallP P t
  end.
Definition calm (i : item) : Prop :=
  match i with IAny rs => Forall (fun a => restoring always a = true) rs | IRep a => restoring always a = true | _ => True end.
Context (e : env) (Re : restores e).
Context (W : cells -> bytes -> Prop).
Definition at_work (i : item) (c : cells) (b : bytes) : Prop := match i with IBody z _ _ _ => exists c0, W c0 z | _ => True end /\ W c b.
Context (G : reader -> Prop) (Ge : eallP G e) (Gs : forall r, G r -> steady r).
Context (HW : forall r c b ok c' b', rallP G r -> eats e (IR r) c b ok c' b' -> W c b -> W c' b').
Context (HWs : forall c b, W c b -> W c (snd (step b))) (HWb : forall c0 c c' u v v', W c0 (u ++ v) -> W c v -> W c' v' -> W c' u).
Context (HI : forall i r c b c' b' w, r_reader (get_rule e i) = Some r -> W c b -> eats e (IR r) c b true c' b' -> b = w ++ b' -> glang Q I r w -> I i w).
Context (HQ : forall a c b c' b' w, rallP G (RZom a) -> W c b -> eats e (IR (RZom a)) c b true c' b' -> b = w ++ b' -> Q a w).
Definition base_of (i : item) (b : bytes) : bytes := match i with IBody z _ _ _ => z | _ => b end.

Lemma parts_interleave sk rs : rallP G sk -> Forall (rallP G) rs -> Forall (rallP G) (interleave sk rs).
Proof. apply all_interleave. Qed.
Lemma calm_any rs : rallP G (RAny rs) -> calm (IAny rs).
Proof. intros H. apply rallP_here in H. exact (Gs _ H). Qed.
Lemma calm_rep a : rallP G (RZom a) \/ rallP G (RMany a) \/ rallP G (ROpt a) -> restoring always a = true.
Proof. intros [H|[H|H]]; apply rallP_here in H; exact (Gs _ H). Qed.
Theorem eats_lang i c b ok c' b' : eats e i c b ok c' b' -> ok = true -> calm i -> parts G i -> at_work i c b ->
  forall w, base_of i b = w ++ b' -> ilang i w.
Proof.
  induction 1; intros Ok0 Hc Hg Hw v E; subst; cbn [ilang base_of parts calm] in *;
    try match goal with H : rallP G ?r |- _ => pose proof H as Hg'; cbn [rallP] in Hg' end;
    try discriminate; try (unfold at_work in *; cbn [glang] in *; solve [eauto]).
  - rewrite Ok0 in E. destruct r; try discriminate; cbn [glang]; rewrite H; exists (after_rune b); rewrite <- E; auto.
  - apply same_end in E. cbn. auto.
  - cbn. unfold empty_of. destruct b; [|discriminate]. destruct v; [auto|discriminate].
  - cbn [glang]. refine (HI _ _ _ _ _ _ _ H (proj2 Hw) H0 E _). apply IHeats; auto. exact (Ge _ _ H).
  - cbn [glang]. refine (HI _ _ _ _ _ _ _ H (proj2 Hw) H0 E _). apply IHeats; auto. exact (Ge _ _ H).
  - apply IHeats; tauto.
  - apply IHeats; tauto.
  - apply IHeats; tauto.
  - apply IHeats; tauto.
  - apply IHeats; tauto.
  - cbn [glang]. destruct ok.
    + right. apply IHeats; tauto.
    + left. pose proof (eats_restore e Re _ _ _ _ _ _ H) as X. cbn in X. rewrite X in E; auto; [|apply (calm_rep r); auto].
      destruct v; [auto|]. apply (f_equal (@length byte)) in E. cbn in E. rewrite app_length in E. lia.
  - cbn [glang]. unfold empty_of. destruct v; [auto|]. apply (f_equal (@length byte)) in E. cbn in E. rewrite app_length in E. lia.
  - cbn [glang]. destruct ok; [discriminate|]. apply (step_short b). auto.
  - apply lang_any. apply IHeats; auto; [apply calm_any; auto|]. apply all_Forall. apply Hg'.
  - apply lang_seq. apply IHeats; auto. apply all_Forall. apply Hg'.
  - apply lang_skip. apply IHeats; auto. apply parts_interleave; [apply Hg'|]. apply all_Forall. apply Hg'.
  - cbn [glang]. split; [apply IHeats; auto; [apply calm_rep; auto|apply Hg']|]. refine (HQ _ _ _ _ _ _ Hg (proj2 Hw) (e_zom _ _ _ _ _ _ H) E).
  - cbn [glang]. apply star_snoc; [|intros ->; cbn in E; rewrite E, Nat.ltb_irrefl in Ok0; discriminate]. apply IHeats; auto; [apply calm_rep; auto|apply Hg'].
  - cbn [glang]. apply IHeats; auto. apply Hg'.
  - cbn [glang]. apply IHeats; auto. apply Hg'.
  - cbn [glang]. apply IHeats; auto; [apply Hg'|]. split; [|apply Hw]. exists c. apply Hw.
  - cbn [glang]. apply IHeats; auto; [apply Hg'|]. split; [|apply Hw]. exists c. apply Hw.
  - cbn [glang]. apply IHeats; auto; apply Hg'.
  - exists r. split; [left; auto|]. inversion Hg; subst. apply IHeats; auto.
  - inversion Hg; subst. inversion Hc; subst. pose proof (eats_restore e Re _ _ _ _ _ _ H) as X. cbn in X. rewrite (X H5 eq_refl) in *. 
    destruct (IHeats2 eq_refl H6 H4) with (w := v) as (q & Q1 & Q2); auto; [split; [exact Logic.I|]|exists q; split; [right|]; auto].
    apply (HW _ _ _ _ _ _ (H3) H (proj2 Hw)).
  - cbn. unfold empty_of. destruct v; [auto|]. apply (f_equal (@length byte)) in E. cbn in E. rewrite app_length in E. lia.
  - inversion Hg; subst. destruct (eats_suffix _ _ _ _ _ _ _ H) as [d1 E1]. destruct (eats_suffix _ _ _ _ _ _ _ H0) as [d2 E2].
    exists d1, d2. split; [apply same_end with b'; rewrite <- app_assoc, <- E2, <- E1; auto|]. split; [apply IHeats1; auto|].
    apply IHeats2; auto. split; [exact Logic.I|]. apply (HW _ _ _ _ _ _ (H3) H (proj2 Hw)).
  - pose proof (eats_restore e Re _ _ _ _ _ _ H) as X. cbn in X. rewrite (X Hc eq_refl) in E. destruct v; [constructor|]. apply (f_equal (@length byte)) in E. cbn in E. rewrite app_length in E. lia.
  - destruct (eats_suffix _ _ _ _ _ _ _ H) as [d1 E1]. destruct (eats_suffix _ _ _ _ _ _ _ H0) as [d2 E2].
    assert (Qv : v = d1 ++ d2) by (apply same_end with b'; rewrite <- app_assoc, <- E2, <- E1; auto). rewrite Qv. constructor; [apply IHeats1; auto|].
    apply IHeats2; auto. split; [exact Logic.I|]. apply (HW _ _ _ _ _ _ (Hg) H (proj2 Hw)).
  - cbn. unfold empty_of. destruct v; [auto|]. apply (f_equal (@length byte)) in E. cbn in E. rewrite app_length in E. lia.
  - destruct (eats_suffix _ _ _ _ _ _ _ H) as [d1 E1]. destruct (eats_suffix _ _ _ _ _ _ _ H0) as [d2 E2].
    exists d1, d2. split; [apply same_end with b'; rewrite <- app_assoc, <- E2, <- E1; auto|]. split; [apply IHeats1; auto|].
    apply IHeats2; auto. split; [exact Logic.I|]. apply (HW _ _ _ _ _ _ (Hg) H (proj2 Hw)).
  - exists [], v. repeat split; auto.
  - destruct (eats_suffix _ _ _ _ _ _ _ H0) as [d1 E1]. destruct (step_suffix b1) as [d0 E0]. destruct (eats_suffix _ _ _ _ _ _ _ H1) as [d2 E2].
    destruct (IHeats2 eq_refl Hc Hg) with (w := d2) as (x & y & -> & _ & Y); auto.
    + split; [exact Logic.I|]. apply HWs. apply (HW _ _ _ _ _ _ (Hg) H0 (proj2 Hw)).
    + exists (d1 ++ d0 ++ x), y. split; [|split; [exact Logic.I|auto]]. apply same_end with b'. rewrite <- E, E1. rewrite E0 at 1. rewrite E2 at 1. rewrite <- !app_assoc. reflexivity.
  - apply andb_true_iff in Ok0 as [O1 O2]. rewrite O1, O2 in E. destruct x; [|discriminate]. subst ok. destruct Hw as [[c0 Hz] Hw]. cbn [andb] in E.
    assert (S : W c1 str) by (eapply HWb; [exact Hz|exact Hw|]; apply (HW _ _ _ _ _ _ (proj2 Hg) H0 Hw)). destruct k; cbn [andb] in E.
    + apply same_end in E. subst v. apply IHeats2; auto; first [apply Hg|split; [exact Logic.I|assumption]|symmetry; apply app_nil_r].
    + destruct (eats_suffix _ _ _ _ _ _ _ H0) as [d1 E1]. exists str, d1. split; [apply same_end with b1; rewrite <- app_assoc, <- E1; auto|].
      split; [apply IHeats2; auto; first [apply Hg|split; [exact Logic.I|assumption]|symmetry; apply app_nil_r]|]. apply IHeats1; auto; [apply Hg|]. split; [exact Logic.I|auto].
  - apply IHeats2; auto. split; [apply Hw|]. apply HWs. apply (HW _ _ _ _ _ _ (proj2 Hg) H0 (proj2 Hw)).
Qed.
End Lang.
