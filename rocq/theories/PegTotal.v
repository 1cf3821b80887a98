(** PegTotal.v - grammars without left recursion and without repetitions of the empty
    text: every Read returns. *)
From Verif Require Export PegFacts.
From Coq Require Import Lia ZifyBool.
From Verif Require Import ReaderSteps Peg.

(* ------------------------------------------------- well-formed UTF-8 texts *)

Lemma wf_nil : wf_text [].
Proof. exists []. auto. Qed.
Lemma wf_app x y : wf_text x -> wf_text y -> wf_text (x ++ y).
Proof. intros (r & A & ->) (q & B & ->). exists (r ++ q). split; [apply Forall_app; auto|rewrite utf8s_app; auto]. Qed.
Lemma wf_rune r : is_scalar r -> wf_text (utf8 r).
Proof. intros H. exists [r]. split; auto. cbn. rewrite app_nil_r. auto. Qed.
Lemma wf_first b : wf_text b -> b <> [] -> exists r t, is_scalar r /\ b = utf8 r ++ t /\ wf_text t.
Proof.
  intros (rs & F & ->) N. destruct rs as [|r rs]; [elim N; reflexivity|]. inversion F; subst. exists r, (utf8s rs). split; auto. split; auto. exists rs. auto.
Qed.
Lemma wf_rest x y : wf_text x -> wf_text (x ++ y) -> wf_text y.
Proof.
  intros (rs & F & ->). revert y. induction F as [|r rs Hr F IH]; intros y W; auto. cbn [utf8s flat_map] in W. change (flat_map utf8 rs) with (utf8s rs) in W. rewrite <- app_assoc in W.
  apply IH. destruct (wf_first _ W) as (q & t & Hq & E & Wt).
  - pose proof (utf8_nonnil r). destruct (utf8 r); [congruence|discriminate].
  - apply utf8_prefix_free in E as [-> E]; auto. congruence.
Qed.
Lemma wf_start x y : wf_text (x :: y) -> rune_start x = true.
Proof.
  intros W. destruct (wf_first _ W) as (r & u & Hr & E & _); [discriminate|]. destruct (utf8_shape r Hr) as (b & c & S & B & _). rewrite S in E. injection E as -> _. auto.
Qed.
Lemma wf_begin x y : wf_text y -> wf_text (x ++ y) -> wf_text x.
Proof.
  intros Wy. remember (length x) as n eqn:En. assert (L : (length x <= n)%nat) by lia. clear En. revert x L. induction n as [|n IH]; intros x L W.
  { destruct x; [apply wf_nil|cbn in L; lia]. }
  destruct x as [|a x]; [apply wf_nil|]. destruct (wf_first _ W) as (r & t & Hr & E & Wt); [discriminate|].
  destruct (Nat.le_gt_cases (length (utf8 r)) (length (a :: x))) as [G|G].
  - symmetry in E. destruct (app_split_le _ _ _ _ E G) as (m & Em & Em'). rewrite Em. apply wf_app; [apply wf_rune; auto|]. apply IH; [|congruence].
    apply (f_equal (@length _)) in Em. rewrite app_length in Em. pose proof (utf8_length_pos r). cbn [length] in *. lia.
  - exfalso. destruct (app_split_le _ _ _ _ E (Nat.lt_le_incl _ _ G)) as (m & Em & Em'). destruct m as [|z m]; [rewrite app_nil_r in Em; rewrite Em in G; lia|].
    destruct (utf8_shape r Hr) as (b & c & S & _ & F & _). rewrite S in Em. injection Em as -> ->. apply Forall_app in F as [_ F]. inversion F; subst.
    assert (X : rune_start z = true) by (exact (wf_start z _ Wy)). congruence.
Qed.
(** utf8.ValidString *)
Definition valid (x : bytes) : bool := bytes_eqb (utf8s (runes x)) x.
Lemma valid_wf x : valid x = true -> wf_text x.
Proof.
  intros H. unfold valid in H. apply bytes_eqb_eq in H. exists (runes x). split; [|auto]. destruct (chunked_exists x) as [l C]. rewrite (runes_chunked _ _ C).
  apply Forall_map. apply (chunked_scalar _ _ C).
Qed.
Lemma after_rune_utf8 r t : is_scalar r -> after_rune (utf8 r ++ t) = t.
Proof. intros H. unfold after_rune. rewrite decode_utf8 by auto. cbn [snd]. rewrite skipn_app, skipn_all, Nat.sub_diag. reflexivity. Qed.
Lemma step_utf8 r t : is_scalar r -> step (utf8 r ++ t) = (true, t).
Proof.
  intros H. unfold step. rewrite decode_utf8 by auto. cbn [fst]. rewrite rune_len_scalar by auto. unfold slen. rewrite Nat2Z.id.
  pose proof (utf8_nonnil r). destruct (utf8 r ++ t) eqn:E; [destruct (utf8 r); [congruence|discriminate]|]. rewrite <- E. clear E.
  rewrite (proj2 (Nat.leb_le _ _)) by (rewrite app_length; lia). rewrite skipn_app, skipn_all, Nat.sub_diag. reflexivity.
Qed.
Lemma wf_after b : wf_text b -> wf_text (after_rune b).
Proof.
  intros W. destruct b as [|x b]; [cbn; auto|]. destruct (wf_first _ W) as (r & t & Hr & E & Wt); [discriminate|]. rewrite E, after_rune_utf8; auto.
Qed.
Lemma wf_step b : wf_text b -> wf_text (snd (step b)).
Proof.
  intros W. destruct b as [|x b]; [cbn; auto|]. destruct (wf_first _ W) as (r & t & Hr & E & Wt); [discriminate|]. rewrite E, step_utf8; auto.
Qed.
Lemma step_less b : wf_text b -> b <> [] -> (length (snd (step b)) < length b)%nat.
Proof.
  intros W N. destruct (wf_first _ W) as (r & t & Hr & E & Wt); auto. rewrite E, step_utf8 by auto. cbn. rewrite app_length. pose proof (utf8_length_pos r). lia.
Qed.

Lemma step_moves b b' : step b = (true, b') -> (length b' < length b)%nat.
Proof.
  unfold step. remember (Z.to_nat (rune_len (fst (decode_rune b)))) as w eqn:Ew.
  assert (W : (0 < w)%nat) by (subst w; rewrite rune_len_scalar by apply decode_scalar; unfold slen; pose proof (utf8_length_pos (fst (decode_rune b))); lia).
  clear Ew. destruct b as [|x b]; [discriminate|]. destruct (Nat.leb w (length (x :: b))) eqn:Q; [|discriminate]. intros H. injection H as <-.
  rewrite skipn_length. cbn [length]. lia.
Qed.

(* ------------------------------------------------------- static conditions *)

(** Can the test succeed without consuming: it holds for (U+FFFD, 0). *)
Definition eps_test (f : Z -> nat -> bool) : bool := f RuneError 0%nat.
(** [eps N r]: [r] may succeed without consuming text; [N] tells this of the rules. *)
Fixpoint eps (N : nat -> bool) (r : reader) : bool :=
  match r with
  | RAny rs => existsb (eps N) rs
  | RSeq rs => forallb (eps N) rs
  | RSkipSeq a rs => eps N a && forallb (eps N) rs
  | RJanusBeg _ _ a | RMap _ a | RNamed _ a | RPast a | RPick _ _ a | RMonitor _ _ a | RRuleName a => eps N a
  | RBodyTail _ a => eps N a
  | RTimes k a => (k <=? 0) || eps N a
  | RRule i | RGrammar _ _ i => N i
  | RLit x => no_text x
  | RInvalid _ | RMany _ => false
  | _ => match rune_test r with Some f => eps_test f | None => true end
  end.
(** [left N ok r]: all rules [r] may use before anything is consumed are [ok]. *)
Fixpoint left (N ok : nat -> bool) (r : reader) : bool :=
  let seqs := fix seqs (rs : list reader) : bool :=
    match rs with [] => true | x :: t => left N ok x && (negb (eps N x) || seqs t) end in
  match r with
  | RAny rs => forallb (left N ok) rs
  | RSeq rs => seqs rs
  | RSkipSeq a rs => left N ok a && (negb (eps N a) || seqs rs)
  | RBody _ a | RBodyTail _ a => left N ok a
  | RAt a | RJanusBeg _ _ a | RMany a | RMap _ a | RNamed _ a | RNot a | ROpt a | RPast a
  | RTimes _ a | RTo a | RZom a | RPick _ _ a | RMonitor _ _ a | RRuleName a => left N ok a
  | RRule i | RGrammar _ _ i => ok i
  | _ => true
  end.
Fixpoint left_seq (N ok : nat -> bool) (rs : list reader) : bool :=
  match rs with [] => true | x :: t => left N ok x && (negb (eps N x) || left_seq N ok t) end.
Lemma left_seq_is N ok rs : left N ok (RSeq rs) = left_seq N ok rs.
Proof. cbn [left]. induction rs as [|x t IH]; [reflexivity|]. cbn [left_seq]. rewrite IH. reflexivity. Qed.
Lemma left_skip_is N ok a rs : left N ok (RSkipSeq a rs) = left N ok a && (negb (eps N a) || left_seq N ok rs).
Proof. rewrite <- left_seq_is. reflexivity. Qed.
(** [solid r]: started on a text whose last byte is a control character, and not at its end,
    [r] leaves some text; if it succeeds it consumes something. *)
Definition printable (c : Z) : bool := 0x20 <=? c.
Fixpoint solid (r : reader) : bool :=
  match r with
  | RRune c => printable c
  | RAnyRune str => forallb printable (runes str)
  | RBetween mn _ | RHoley mn _ _ => printable mn
  | RBetweenAny ranges singles => forallb (fun q => printable (fst q)) ranges && forallb printable (runes singles)
  | RLit x => negb (no_text x) && forallb (fun y => printable (bz y)) x
  | RAny rs => forallb solid rs
  | RSeq rs => match rs with [] => false | _ => forallb solid rs end
  | RMany a => solid a
  | RTimes k a => (0 <? k) && solid a
  | _ => false
  end.
(** [u]: the text is well-formed UTF-8; without it Past, Body and BodyTail are left out.
    [z]: the text ends in a control character; with it Body and BodyTail are left out. *)
Definition base (u z : bool) (e : env) (r : reader) : bool :=
  match r with
  | RPast _ => u
  | RBody _ _ | RBodyTail _ _ => u && negb z
  | RLit x => negb u || valid x
  | RRule i | RGrammar _ _ i => match r_reader (get_rule e i) with Some _ => true | None => false end
  | RFold _ | RBool _ _ | RInt _ _ _ | RUint _ _ _ | RWrap _ _ => false
  | _ => true
  end.
(** Repetitions consume something in every round, or ([z]) they stand behind something solid
    and repeat something solid. *)
Fixpoint reps (z : bool) (N : nat -> bool) (r : reader) : bool :=
  match r with
  | RZom a | RMany a => negb (eps N a) && reps z N a
  | RAny rs => forallb (reps z N) rs
  | RSeq rs => forallb (reps z N) rs ||
      match rs with
      | x :: RZom a :: t => z && negb (eps N x) && solid x && solid a && reps z N x && reps z N a && forallb (reps z N) t
      | _ => false
      end
  | RSkipSeq a rs => reps z N a && forallb (reps z N) rs
  | RBody a t | RBodyTail a t => reps z N a && reps z N t
  | RAt a | RJanusBeg _ _ a | RMap _ a | RNamed _ a | RNot a | ROpt a | RPast a
  | RTimes _ a | RTo a | RPick _ _ a | RMonitor _ _ a | RRuleName a => reps z N a
  | _ => true
  end.
Definition fine (u z : bool) (N : nat -> bool) (e : env) (r : reader) : bool := rall (base u z e) r && reps z N r.
(** A certificate for [e]: nullable rules, and ranks that decrease along left calls. *)
Record certified (u z : bool) (N : nat -> bool) (rank : nat -> nat) (e : env) : Prop := {
  ct_eps : forall i r, r_reader (get_rule e i) = Some r -> eps N r = true -> N i = true;
  ct_left : forall i r, r_reader (get_rule e i) = Some r -> left N (fun j => Nat.ltb (rank j) (rank i)) r = true;
  ct_fine : forall i r, r_reader (get_rule e i) = Some r -> fine u z N e r = true;
  ct_rank : exists K, forall i, (rank i < K)%nat
}.

Section Eps.
Context (N : nat -> bool) (e : env) (Ce : forall i r, r_reader (get_rule e i) = Some r -> eps N r = true -> N i = true).
Definition eps_item (i : item) : bool :=
  match i with
  | IR r => eps N r | IAny rs => existsb (eps N) rs | ISeq rs => forallb (eps N) rs | IRep _ => true
  | ITimes k r => Nat.eqb k 0 || eps N r | IPast r => eps N r | ITo _ => true | IBody _ k _ t => k || eps N t
  end.
Lemma suffix_le (b b' d : bytes) : b = d ++ b' -> (length b' <= length b)%nat.
Proof. intros ->. rewrite app_length. lia. Qed.
Lemma eats_le i c b ok c' b' : eats e i c b ok c' b' -> (length b' <= length b)%nat.
Proof. intros H. destruct (eats_suffix _ _ _ _ _ _ _ H) as [d E]. eapply suffix_le; eauto. Qed.
Lemma step_le b : (length (snd (step b)) <= length b)%nat.
Proof. destruct (step_suffix b) as [d E]. eapply suffix_le; eauto. Qed.
Lemma decode_pos b : b <> [] -> (0 < snd (decode_rune b))%nat.
Proof.
  intros N0. destruct (chunked_exists b) as [l C]. destruct l as [|[r w] l]; [apply chunked_nil_r in C; congruence|].
  apply chunked_cons_inv in C as (v & E1 & _ & E2 & Nw & _). rewrite E2. destruct w; [congruence|cbn; lia].
Qed.
Lemma after_less b : b <> [] -> (length (after_rune b) < length b)%nat.
Proof. intros H. unfold after_rune. rewrite skipn_length. pose proof (decode_pos b H). destruct b; [congruence|cbn [length]; lia]. Qed.
(** What is not nullable consumes something. *)
Lemma eats_eps i c b ok c' b' : eats e i c b ok c' b' -> ok = true -> eps_item i = false -> (length b' < length b)%nat.
Proof.
  induction 1; intros Ok0 Ep; cbn [eps_item eps rune_test existsb forallb] in *; try discriminate.
  - (* test *) assert (Ep' : eps_test f = false) by (destruct r; try discriminate; injection H as <-; exact Ep). rewrite Ok0. destruct b as [|x b]; [|apply after_less; discriminate].
    unfold test in Ok0. cbn in Ok0. unfold eps_test in Ep'. congruence.
  - destruct x; [discriminate|]. rewrite app_length. cbn. lia.
  - apply IHeats; auto. cbn [eps_item]. destruct (eps N r) eqn:Q; auto. rewrite (Ce i r H Q) in Ep. discriminate.
  - apply IHeats; auto. cbn [eps_item]. destruct (eps N r) eqn:Q; auto. rewrite (Ce i r H Q) in Ep. discriminate.
  - auto.
  - auto.
  - auto.
  - rewrite Ok0. auto.
  - rewrite Ok0. auto.
  - rewrite Ok0. auto.
  - rewrite Ok0. auto.
  - rewrite Ok0. apply IHeats; auto. cbn [eps_item]. rewrite interleave_flat. cbn [forallb]. destruct (eps N sk) eqn:Q; auto. cbn [andb] in *.
    clear -Ep. induction rs as [|x rs IH]; cbn [flat_map app forallb] in *; [discriminate|]. destruct (eps N x); auto. cbn [andb] in *. rewrite IH by auto. apply andb_false_r.
  - apply Nat.ltb_lt. auto.
  - apply IHeats; auto. cbn [eps_item]. destruct (eps N r); [rewrite orb_true_r in Ep; discriminate|]. rewrite orb_false_r in *. apply Nat.eqb_neq. apply Z.leb_gt in Ep. lia.
  - rewrite Ok0. auto.
  - rewrite Ok0. apply IHeats; auto.
  - auto.
  - rewrite orb_false_iff in Ep. apply IHeats; tauto.
  - rewrite orb_false_iff in Ep. pose proof (eats_le _ _ _ _ _ _ H). specialize (IHeats2 Ok0 (proj2 Ep)). lia.
  - pose proof (eats_le _ _ _ _ _ _ H). pose proof (eats_le _ _ _ _ _ _ H0). destruct (eps N r) eqn:Q; [specialize (IHeats2 Ok0 Ep)|specialize (IHeats1 eq_refl eq_refl)]; lia.
  - pose proof (eats_le _ _ _ _ _ _ H). pose proof (eats_le _ _ _ _ _ _ H0). specialize (IHeats1 eq_refl Ep). lia.
  - auto.
  - pose proof (eats_le _ _ _ _ _ _ H0). pose proof (step_le b1). specialize (IHeats2 Ok0 Ep). lia.
  - destruct k; [discriminate|]. cbn [andb]. auto.
  - pose proof (eats_le _ _ _ _ _ _ H0). pose proof (step_le b1). specialize (IHeats2 Ok0 Ep). lia.
Qed.
End Eps.

Section Total.
Context (u z : bool) (N : nat -> bool) (rank : nat -> nat) (e : env) (Ct : certified u z N rank e).
Definition good (r : reader) : Prop := rall (base u z e) r = true.
Definition sure (r : reader) : Prop := good r /\ reps z N r = true.
Lemma ct_sure i r : r_reader (get_rule e i) = Some r -> sure r.
Proof. intros H. pose proof (ct_fine _ _ _ _ _ Ct i r H) as X. apply andb_true_iff in X. exact X. Qed.
Lemma ct_good i r : r_reader (get_rule e i) = Some r -> good r.
Proof. intros H. apply (ct_sure i r H). Qed.

(** Well-formed texts stay well-formed. *)
Definition wfu (b : bytes) : Prop := u = true -> wf_text b.
Definition wfc (c : cells) : Prop := u = true -> forall i, wf_text (get [] c i).
Lemma wfc_put c i x : wfc c -> wfu x -> wfc (put [] c i x).
Proof. intros C X U j. rewrite get_put. destruct (Nat.eqb i j); [apply X|apply C]; auto. Qed.
Definition good_item (i : item) : Prop :=
  match i with
  | IR r | IRep r | ITimes _ r | IPast r | ITo r => good r
  | IAny rs | ISeq rs => forall r, In r rs -> good r
  | IBody y _ d t => good d /\ good t /\ wfu y
  end.
Lemma good_list rs : forallb (rall (base u z e)) rs = true <-> forall r, In r rs -> good r.
Proof. apply forallb_forall. Qed.
Lemma good_interleave sk rs : good sk -> (forall r, In r rs -> good r) -> forall r, In r (interleave sk rs) -> good r.
Proof.
  intros A B r. rewrite interleave_flat. intros [<-|I]; auto. apply in_flat_map in I as (x & I1 & [<-|[<-|[]]]); auto.
Qed.
Ltac gd H := unfold good in H; cbn [rall] in H; rewrite ?andb_true_iff, ?good_list in H.
Lemma eats_wf i c b ok c' b' : eats e i c b ok c' b' -> good_item i -> wfu b -> wfc c -> wfu b' /\ wfc c'.
Proof.
  induction 1; intros G B C; cbn [good_item] in *;
    repeat match goal with
    | X : good (_ _) |- _ => gd X; cbn [base] in X
    | X : good (_ _ _) |- _ => gd X; cbn [base] in X
    | X : good (_ _ _ _) |- _ => gd X; cbn [base] in X
    end; auto.
  - destruct (test f b); auto. split; auto. intros U. apply wf_after; auto.
  - split; auto. intros U. specialize (B U). destruct G as [G _]. rewrite U in G. cbn in G. eapply wf_rest; [apply valid_wf; exact G|exact B].
  - apply IHeats; auto. eapply ct_good; eauto.
  - apply IHeats; auto. eapply ct_good; eauto.
  - destruct G. apply IHeats; auto.
  - destruct G. apply IHeats; auto.
  - destruct G. apply IHeats; auto.
  - destruct G, IHeats; auto. destruct ok; auto.
  - destruct G, IHeats; auto. destruct ok; auto.
  - destruct G. apply IHeats; auto.
  - destruct G, IHeats; auto.
  - destruct G, IHeats; auto. destruct ok; auto. split; auto. intros U. apply wf_step; auto.
  - destruct G, IHeats; auto. destruct ok; auto.
  - destruct G, IHeats; auto. destruct ok; auto.
  - destruct G as (_ & G1 & G2). destruct (IHeats (good_interleave _ _ G1 G2) B C). destruct ok; auto.
  - destruct G. apply IHeats; auto.
  - destruct G. apply IHeats; auto.
  - destruct G. apply IHeats; auto.
  - destruct G, IHeats; auto. destruct ok; auto.
  - destruct G, IHeats; auto. destruct ok; auto.
  - destruct G as (_ & G1 & G2), IHeats; auto. destruct ok; auto.
  - destruct G as (_ & G1 & G2), IHeats; auto. destruct ok; auto.
  - destruct G, IHeats; auto. split; auto. apply wfc_put; auto. intros U. apply (wf_begin x b); auto.
  - destruct G, IHeats; auto.
  - split; [|apply wfc_put; auto; intros U; apply wf_nil]. intros U. eapply wf_rest; [apply (C U i)|auto].
  - apply IHeats; auto. apply G. left; auto.
  - destruct IHeats1; auto; [apply G; left; auto|]. apply IHeats2; auto. intros q I. apply G. right. auto.
  - apply IHeats; auto. apply G. left; auto.
  - destruct IHeats1; auto; [apply G; left; auto|]. apply IHeats2; auto. intros q I. apply G. right. auto.
  - destruct IHeats1; auto.
  - destruct IHeats1; auto.
  - destruct IHeats1; auto. apply IHeats2; auto. intros U. apply wf_step; auto.
  - destruct IHeats; auto.
  - destruct IHeats; auto. split; auto. intros U. pose proof (wf_step b1 (H1 U)) as X. rewrite H0 in X. exact X.
  - destruct IHeats1; auto. apply IHeats2; auto. intros U. pose proof (wf_step b1 (H2 U)) as X. rewrite H0 in X. exact X.
  - destruct G as (G1 & G2 & G3). destruct IHeats1; auto. assert (S : wfu str) by (intros U; apply (wf_begin str b); auto). destruct IHeats2; auto. split; auto. destruct (k && _); auto.
  - destruct G as (G1 & G2 & G3). destruct IHeats1; auto. apply IHeats2; auto. intros U. apply wf_step; auto.
Qed.

(* ------------------------------------------------------- control characters *)

(** A text that ends in a control character, or is empty. *)
Definition tailed (b : bytes) : Prop := forall p y, b = p ++ [y] -> bz y < 0x20.
Lemma tailed_rest d b : tailed (d ++ b) -> tailed b.
Proof. intros H p y ->. apply (H (d ++ p)). rewrite app_assoc. reflexivity. Qed.
Lemma not_last (d : bytes) b : tailed (d ++ b) -> (forall p y, d = p ++ [y] -> 0x20 <= bz y) -> d <> [] -> b <> [].
Proof.
  intros T P Nd ->. rewrite app_nil_r in T. destruct (exists_last Nd) as (p & y & Q). specialize (T p y Q). specialize (P p y Q). lia.
Qed.
Lemma utf8_last r p y : is_scalar r -> 0x20 <= r -> utf8 r = p ++ [y] -> 0x20 <= bz y.
Proof.
  intros Sr H E. destruct (Z.ltb_spec r 0x80) as [G|G].
  - unfold utf8 in E. replace (r <? 0x80) with true in E by lia. destruct p as [|q p]; [|destruct p; discriminate]. injection E as <-. rewrite bz_zb; lia.
  - destruct (utf8_shape r Sr) as (x & c & Q & _ & C & _). rewrite Q in E. destruct p as [|q p].
    + injection E as -> ->. exfalso. assert (X : length (utf8 r) = 1%nat) by (rewrite Q; reflexivity). unfold utf8 in X. replace (r <? 0x80) with false in X by lia. destruct (r <? 0x800), (r <? 0x10000); discriminate X.
    + injection E as <- ->. rewrite Forall_forall in C. assert (I : In y (p ++ [y])) by (apply in_or_app; right; left; reflexivity). specialize (C y I). unfold rune_start, in_byte in C. lia.
Qed.
(** The rune at the start of the text, if it is not a control character, is not the last byte. *)
Lemma rune_not_last b : tailed b -> b <> [] -> 0x20 <= fst (decode_rune b) -> after_rune b <> [].
Proof.
  intros T B H. destruct (decode_cases b B) as [(r & t & S & E & D)|[D _]].
  - rewrite D in H. cbn [fst] in H. rewrite E, after_rune_utf8 by auto. rewrite E in T. apply (not_last (utf8 r) t); auto; [|apply utf8_nonnil]. intros p y. apply utf8_last; auto.
  - unfold after_rune. rewrite D. cbn [snd]. destruct b as [|x [|x2 b]]; [congruence| |discriminate]. specialize (T [] x eq_refl). unfold decode_rune in H. replace (bz x <? 0x80) with true in H by lia. cbn [fst] in H. lia.
Qed.
Lemma test_solid r f b : rune_test r = Some f -> solid r = true -> test f b = true -> b <> [] -> 0x20 <= fst (decode_rune b).
Proof.
  intros R S T B. assert (I : snd (decode_rune b) <> 0%nat) by (pose proof (decode_pos b B); lia). unfold test in T. remember (fst (decode_rune b)) as v eqn:Ev. remember (snd (decode_rune b)) as i eqn:Ei. clear Ev Ei B.
  assert (X : Nat.eqb i 0 = false) by (apply Nat.eqb_neq; auto). destruct r; try discriminate; injection R as <-; cbn [solid] in S; unfold in_range, printable in *; rewrite ?X in T; cbn [negb andb] in T; try lia.
  - apply existsb_exists in T as (c & I1 & I2). rewrite forallb_forall in S. specialize (S c I1). lia.
  - apply andb_true_iff in S as [S1 S2]. rewrite forallb_forall in S1, S2. apply orb_true_iff in T as [T|T]; apply existsb_exists in T as (c & I1 & I2); [specialize (S1 c I1)|specialize (S2 c I1)]; lia.
Qed.
Definition solid_item (i : item) : Prop :=
  match i with
  | IR r | IRep r | ITimes _ r => solid r = true
  | IAny rs | ISeq rs => forall r, In r rs -> solid r = true
  | _ => False
  end.
Definition moving (i : item) : Prop :=
  match i with IRep _ | ISeq [] => False | ITimes k _ => k <> 0%nat | _ => True end.
Lemma eats_solid i c b ok c' b' : eats e i c b ok c' b' -> solid_item i -> tailed b -> b <> [] ->
  b' <> [] /\ (ok = true -> moving i -> (length b' < length b)%nat).
Proof.
  induction 1; intros S T B; cbn [solid_item moving] in *; cbn [solid] in S; try discriminate S; try contradiction S.
  - destruct (test f b) eqn:Q; [|split; [auto|discriminate]]. split; [|intros _ _; apply after_less; auto]. apply rune_not_last; auto. eapply test_solid; eauto.
  - apply andb_true_iff in S as [S1 S2]. assert (Nx : x <> []) by (destruct x; discriminate). split; [|intros _ _; rewrite app_length; destruct x; [congruence|cbn; lia]].
    apply (not_last x b); auto. intros p y ->. rewrite forallb_app in S2. apply andb_true_iff in S2 as [_ S2]. cbn in S2. unfold printable in S2. lia.
  - split; [auto|discriminate].
  - rewrite forallb_forall in S. destruct (IHeats S T B) as [A1 A2]. destruct ok; [|split; [auto|discriminate]]. auto.
  - destruct rs as [|r0 rs]; [discriminate|]. assert (S' : forall r, In r (r0 :: rs) -> solid r = true) by (apply forallb_forall; exact S).
    destruct (IHeats S' T B) as [A1 A2]. destruct ok; [|split; [auto|discriminate]]. split; auto.
  - destruct (IHeats S T B) as [A1 A2]. split; auto. intros Q _. apply Nat.ltb_lt. exact Q.
  - apply andb_true_iff in S as [S1 S2]. destruct (IHeats S2 T B) as [A1 A2]. split; auto. intros Q _. apply A2; auto. lia.
  - split; [auto|discriminate].
  - destruct (IHeats (S _ (or_introl eq_refl)) T B) as [A1 A2]. split; auto.
  - destruct (IHeats1 (S _ (or_introl eq_refl)) T B) as [A1 A2]. destruct (eats_suffix _ _ _ _ _ _ _ H) as [d ->]. destruct (IHeats2 (fun q I => S q (or_intror I)) (tailed_rest _ _ T) A1) as [A3 A4].
    split; auto. intros Q _. specialize (A4 Q I). rewrite app_length. lia.
  - split; auto. tauto.
  - destruct (IHeats (S _ (or_introl eq_refl)) T B) as [A1 A2]. split; [auto|discriminate].
  - destruct (IHeats1 (S _ (or_introl eq_refl)) T B) as [A1 A2]. destruct (eats_suffix _ _ _ _ _ _ _ H) as [d ->]. destruct (IHeats2 (fun q I => S q (or_intror I)) (tailed_rest _ _ T) A1) as [A3 A4].
    split; auto. intros Q _. specialize (A2 eq_refl I). pose proof (eats_le _ _ _ _ _ _ _ H0). lia.
  - destruct (IHeats S T B) as [A1 A2]. split; [auto|tauto].
  - destruct (IHeats1 S T B) as [A1 A2]. destruct (eats_suffix _ _ _ _ _ _ _ H) as [d ->]. destruct (IHeats2 S (tailed_rest _ _ T) A1) as [A3 A4]. split; [auto|tauto].
  - split; [auto|congruence].
  - destruct (IHeats S T B) as [A1 A2]. split; [auto|discriminate].
  - destruct (IHeats1 S T B) as [A1 A2]. destruct (eats_suffix _ _ _ _ _ _ _ H) as [d ->]. destruct (IHeats2 S (tailed_rest _ _ T) A1) as [A3 A4]. split; auto. intros Q _.
    specialize (A2 eq_refl I). pose proof (eats_le _ _ _ _ _ _ _ H0). lia.
Qed.

(* ------------------------------------------------------------- totality *)

Definition okb (b : bytes) : Prop := wfu b /\ (z = true -> tailed b).
Lemma ok_after i c b ok c' b' : eats e i c b ok c' b' -> good_item i -> okb b -> wfc c -> okb b' /\ wfc c'.
Proof.
  intros E G [B1 B2] C. destruct (eats_wf _ _ _ _ _ _ E G B1 C). split; auto. split; auto. intros Z. destruct (eats_suffix _ _ _ _ _ _ _ E) as [d Q]. apply (tailed_rest d). rewrite <- Q. auto.
Qed.
Lemma ok_step b : okb b -> okb (snd (step b)).
Proof. intros [B1 B2]. split; [intros U; apply wf_step; auto|]. intros Z. destruct (step_suffix b) as [d Q]. apply (tailed_rest d). rewrite <- Q. auto. Qed.
Ltac sd H := unfold sure, good in H; cbn [rall reps] in H; rewrite ?andb_true_iff, ?forallb_forall in H.
Definition tot (n : nat) (r : reader) : Prop := forall c b, length b = n -> okb b -> wfc c -> exists ok c' b', eats e (IR r) c b ok c' b'.
Definition upto (n : nat) (r : reader) : Prop := forall m, (m <= n)%nat -> tot m r.
Lemma upto_run n r c b : upto n r -> sure r -> (length b <= n)%nat -> okb b -> wfc c ->
  exists ok c' b', eats e (IR r) c b ok c' b' /\ (length b' <= length b)%nat /\ okb b' /\ wfc c' /\ (ok = true -> eps N r = false -> (length b' < length b)%nat).
Proof.
  intros H G Ln B C. destruct (H _ Ln c b eq_refl B C) as (ok & c' & b' & E). exists ok, c', b'. split; auto. split; [eapply eats_le; eauto|].
  destruct (ok_after _ _ _ _ _ _ E (proj1 G) B C). split; auto. split; auto. intros Ok0 Ep. exact (eats_eps _ _ (ct_eps _ _ _ _ _ Ct) _ _ _ _ _ _ E Ok0 Ep).
Qed.
Lemma rep_total n r : upto n r -> sure r -> eps N r = false -> forall c b, (length b <= n)%nat -> okb b -> wfc c -> exists c' b', eats e (IRep r) c b true c' b'.
Proof.
  intros H G Ep c b. remember (length b) as k eqn:Ek. revert c b Ek. induction k as [k IH] using (well_founded_induction lt_wf). intros c b Ek Ln B C.
  destruct (upto_run n r c b H G) as (ok & c1 & b1 & E1 & L1 & B1 & C1 & M1); auto; [lia|]. destruct ok.
  - specialize (M1 eq_refl Ep). destruct (IH (length b1)) with (c := c1) (b := b1) as (c' & b' & E'); auto; try lia. exists c', b'. eapply i_rep_next; eauto.
  - exists c1, b1. apply i_rep_stop. auto.
Qed.
Lemma times_total n r : upto n r -> sure r -> forall k c b, (length b <= n)%nat -> okb b -> wfc c -> exists ok c' b', eats e (ITimes k r) c b ok c' b'.
Proof.
  intros H G. induction k as [|k IH]; intros c b Ln B C; [exists true, c, b; constructor|].
  destruct (upto_run n r c b H G) as ([] & c1 & b1 & E1 & L1 & B1 & C1 & M1); auto.
  - destruct (IH c1 b1) as (ok & c' & b' & E'); auto; [lia|]. exists ok, c', b'. eapply i_times_next; eauto.
  - exists false, c1, b1. eapply i_times_stop; eauto.
Qed.
Lemma past_total n r : u = true -> upto n r -> sure r -> forall c b, (length b <= n)%nat -> okb b -> wfc c -> exists ok c' b', eats e (IPast r) c b ok c' b'.
Proof.
  intros U H G c b. remember (length b) as k eqn:Ek. revert c b Ek. induction k as [k IH] using (well_founded_induction lt_wf). intros c b Ek Ln B C.
  destruct b as [|x b]; [exists false, c, []; constructor|]. set (b0 := x :: b) in *. assert (Nb : b0 <> []) by discriminate.
  destruct (upto_run n r c b0 H G) as ([] & c1 & b1 & E1 & L1 & B1 & C1 & M1); auto; [lia| |].
  - exists true, c1, b1. apply i_past_hit; auto.
  - destruct b1 as [|y b1]; [exists false, c1, []; eapply i_past_next; [auto|exact E1|apply i_past_end]|]. set (b2 := y :: b1) in *.
    assert (Sl : (length (snd (step b2)) < length b2)%nat) by (apply step_less; [apply B1; auto|discriminate]).
    destruct (IH (length (snd (step b2)))) with (c := c1) (b := snd (step b2)) as (ok & c' & b' & E'); auto; try lia; [apply ok_step; auto|].
    exists ok, c', b'. eapply i_past_next; eauto.
Qed.
Lemma to_total n r : upto n r -> sure r -> forall c b, (length b <= n)%nat -> okb b -> wfc c -> exists ok c' b', eats e (ITo r) c b ok c' b'.
Proof.
  intros H G c b. remember (length b) as k eqn:Ek. revert c b Ek. induction k as [k IH] using (well_founded_induction lt_wf). intros c b Ek Ln B C.
  destruct (upto_run n r c b H G) as ([] & c1 & b1 & E1 & L1 & B1 & C1 & M1); auto; [lia| |].
  - exists true, c1, b. eapply i_to_hit; eauto.
  - destruct (step b1) as [g b2] eqn:St. destruct g; [|exists false, c1, b2; eapply i_to_stop; eauto].
    assert (Sl : (length b2 < length b1)%nat).
    { apply (step_moves _ _ St). }
    destruct (IH (length b2)) with (c := c1) (b := b2) as (ok & c' & b' & E'); auto; try lia.
    { pose proof (ok_step b1 B1) as X. rewrite St in X. exact X. }
    exists ok, c', b'. eapply i_to_next; eauto.
Qed.
Lemma body_total n d t back y0 : u = true -> z = false -> (forall m, (m < n)%nat -> tot m d) -> upto n t -> sure d -> sure t -> (length y0 <= n)%nat -> wfu y0 ->
  forall c b, (exists a, y0 = a ++ b) -> okb b -> wfc c -> exists ok c' b', eats e (IBody y0 back d t) c b ok c' b'.
Proof.
  intros U Z Hd Ht Gd Gt Lz Wz c b. remember (length b) as k eqn:Ek. revert c b Ek. induction k as [k IH] using (well_founded_induction lt_wf). intros c b Ek Sf B C.
  destruct b as [|x b]; [exists false, c, []; constructor|]. set (b0 := x :: b) in *. assert (Nb : b0 <> []) by discriminate.
  destruct Sf as [a ->]. assert (La : (length a < n)%nat) by (rewrite app_length in Lz; cbn in Lz; lia). rewrite app_length in Lz.
  destruct (upto_run n t c b0 Ht Gt) as ([] & c1 & b1 & E1 & L1 & B1 & C1 & M1); auto; [lia| |].
  - destruct (Hd _ La c1 a eq_refl) as (ok & c' & x' & E'); auto; [split; [intros _; apply (wf_begin a b0); [apply B|apply Wz]; auto|congruence]|].
    eexists _, _, _. eapply i_body_hit; eauto.
  - destruct b1 as [|y b1]; [exists false, c1, []; eapply i_body_next; [auto|exact E1|apply i_body_end]|]. set (b2 := y :: b1) in *.
    assert (Sl : (length (snd (step b2)) < length b2)%nat) by (apply step_less; [apply B1; auto|discriminate]).
    destruct (IH (length (snd (step b2)))) with (c := c1) (b := snd (step b2)) as (ok & c' & b' & E'); auto; try lia; [|apply ok_step; auto|].
    { destruct (eats_suffix _ _ _ _ _ _ _ E1) as [d1 Q1]. destruct (step_suffix b2) as [d2 Q2]. exists (a ++ d1 ++ d2). rewrite <- !app_assoc, <- Q2, <- Q1. auto. }
    exists ok, c', b'. eapply i_body_next; eauto.
Qed.
Lemma interleave_flat a rs : interleave a rs = a :: flat_map (fun x => [x; a]) rs.
Proof. induction rs as [|x rs IH]; [reflexivity|]. cbn [interleave flat_map app]. rewrite IH. reflexivity. Qed.
Lemma left_true ok r : (forall i, ok i = true) -> left N ok r = true.
Proof.
  intros H. revert r. refine (reader_ind' _ _ _ _ _ _ _ _ _ _ _ _ _ _ _ _ _ _ _ _ _ _ _ _ _ _ _ _ _ _ _ _ _ _ _ _ _).
  1:{ intros rs F. cbn [left]. apply forallb_forall. rewrite Forall_forall in F. auto. }
  1:{ intros rs F. rewrite left_seq_is. induction F; auto. cbn [left_seq]. rewrite H0, IHF. apply orb_true_r. }
  1:{ intros a rs A F. rewrite left_skip_is, A. cbn [andb]. apply orb_true_iff. right. induction F; auto. cbn [left_seq]. rewrite H0, IHF. apply orb_true_r. }
  all: intros; cbn [left]; auto.
Qed.
(** The excused repetition: behind something solid there is some text left, and remains. *)
Lemma solid_rep n r : upto n r -> sure r -> solid r = true -> forall c b, (length b <= n)%nat -> b <> [] -> z = true -> okb b -> wfc c ->
  exists c' b', eats e (IRep r) c b true c' b'.
Proof.
  intros H G S c b. remember (length b) as k eqn:Ek. revert c b Ek. induction k as [k IH] using (well_founded_induction lt_wf). intros c b Ek Ln Nb Z B C.
  destruct (upto_run n r c b H G) as (ok & c1 & b1 & E1 & L1 & B1 & C1 & M1); auto; [lia|]. destruct ok.
  - destruct (eats_solid _ _ _ _ _ _ E1 S (proj2 B Z) Nb) as [N1 M]. specialize (M eq_refl I).
    destruct (IH (length b1)) with (c := c1) (b := b1) as (c' & b' & E'); auto; try lia. exists c', b'. eapply i_rep_next; eauto.
  - exists c1, b1. apply i_rep_stop. auto.
Qed.
Section Step.
Context (n : nat) (IHn : forall m r, (m < n)%nat -> sure r -> tot m r).
Lemma any_total rs : (forall r, In r rs -> tot n r /\ sure r) -> forall c b, (length b <= n)%nat -> okb b -> wfc c -> exists ok c' b', eats e (IAny rs) c b ok c' b'.
Proof.
  induction rs as [|r rs IH]; intros H c b Ln B C; [exists false, c, b; constructor|]. destruct (H r (or_introl eq_refl)) as [T G].
  assert (Up : upto n r) by (intros m Hm; destruct (Nat.eq_dec m n) as [->|]; [auto|apply IHn; [lia|auto]]).
  destruct (upto_run n r c b Up G) as ([] & c1 & b1 & E1 & L1 & B1 & C1 & M1); auto.
  - exists true, c1, b1. apply i_any_hit. auto.
  - destruct (IH (fun q I => H q (or_intror I)) c1 b1) as (ok & c' & b' & E'); auto; [lia|]. exists ok, c', b'. eapply i_any_next; eauto.
Qed.
Lemma seq_less rs : (forall r, In r rs -> sure r) -> forall c b, (length b < n)%nat -> okb b -> wfc c -> exists ok c' b', eats e (ISeq rs) c b ok c' b'.
Proof.
  induction rs as [|r rs IH]; intros H c b Ln B C; [exists true, c, b; constructor|]. pose proof (H r (or_introl eq_refl)) as G.
  destruct (upto_run (length b) r c b) as ([] & c1 & b1 & E1 & L1 & B1 & C1 & M1); auto; [intros m Hm; apply IHn; [lia|auto]| |].
  - destruct (IH (fun q I => H q (or_intror I)) c1 b1) as (ok & c' & b' & E'); auto; [lia|]. exists ok, c', b'. eapply i_seq_next; eauto.
  - exists false, c1, b1. apply i_seq_stop. auto.
Qed.
Lemma seq_total ok0 rs : (forall r, In r rs -> sure r /\ (left N ok0 r = true -> tot n r)) -> left_seq N ok0 rs = true ->
  forall c b, length b = n -> okb b -> wfc c -> exists ok c' b', eats e (ISeq rs) c b ok c' b'.
Proof.
  induction rs as [|r rs IH]; intros H Lf c b Ln B C; [exists true, c, b; constructor|]. destruct (H r (or_introl eq_refl)) as [G T].
  cbn [left_seq] in Lf. apply andb_true_iff in Lf as [Lf1 Lf2]. specialize (T Lf1).
  assert (Up : upto n r) by (intros m Hm; destruct (Nat.eq_dec m n) as [->|]; [auto|apply IHn; [lia|auto]]).
  destruct (upto_run n r c b Up G) as ([] & c1 & b1 & E1 & L1 & B1 & C1 & M1); auto; [lia| |].
  - assert (X : exists ok c' b', eats e (ISeq rs) c1 b1 ok c' b').
    { destruct (Nat.eq_dec (length b1) n) as [Q|Q].
      - apply IH; auto; [intros q I; apply H; right; auto|]. destruct (eps N r) eqn:Ep; [exact Lf2|]. specialize (M1 eq_refl eq_refl). lia.
      - apply seq_less; auto; [|lia]. intros q I. apply (H q (or_intror I)). }
    destruct X as (ok & c' & b' & E'). exists ok, c', b'. eapply i_seq_next; eauto.
  - exists false, c1, b1. apply i_seq_stop. auto.
Qed.
Lemma solid_total ok0 rs : (forall r, In r rs -> left N ok0 r = true -> sure r -> tot n r) -> (forall r, In r rs -> good r) -> left_seq N ok0 rs = true ->
  match rs with x :: RZom a :: t => z && negb (eps N x) && solid x && solid a && reps z N x && reps z N a && forallb (reps z N) t | _ => false end = true ->
  forall c b, length b = n -> okb b -> wfc c -> exists ok c' b', eats e (ISeq rs) c b ok c' b'.
Proof.
  intros T G Lf P c b Ln B C. destruct rs as [|x [|y t]]; try discriminate. destruct y as [| | | | | | | | | | | | | | | | | | | | | | | | | | | | | |a| | | | |]; try discriminate.
  apply andb_true_iff in P as [P P6]. apply andb_true_iff in P as [P P5]. apply andb_true_iff in P as [P P4]. apply andb_true_iff in P as [P P3]. apply andb_true_iff in P as [P P2].
  apply andb_true_iff in P as [Z P1]. apply negb_true_iff in P1. cbn [left_seq] in Lf. apply andb_true_iff in Lf as [Lf1 _].
  assert (Sx : sure x) by (split; [apply G; left; reflexivity|auto]). assert (Sa : sure a).
  { split; auto. pose proof (G (RZom a) (or_intror (or_introl eq_refl))) as Ga. gd Ga. apply Ga. }
  assert (St : forall r, In r t -> sure r) by (intros r I; split; [apply G; right; right; auto|rewrite forallb_forall in P6; auto]).
  specialize (T x (or_introl eq_refl) Lf1 Sx). assert (Up : upto n x) by (intros m Hm; destruct (Nat.eq_dec m n) as [->|]; [auto|apply IHn; [lia|auto]]).
  destruct (upto_run n x c b Up Sx) as ([] & c1 & b1 & E1 & L1 & B1 & C1 & M1); auto; [lia| |].
  - specialize (M1 eq_refl P1). assert (Nb : b <> []) by (intros ->; cbn in M1; lia). destruct (eats_solid _ _ _ _ _ _ E1 P2 (proj2 B Z) Nb) as [N1 _].
    destruct (solid_rep (length b1) a) with (c := c1) (b := b1) as (c2 & b2 & E2); auto; [intros m Hm; apply IHn; [lia|auto]|].
    destruct (ok_after _ _ _ _ _ _ E2 (proj1 Sa) B1 C1) as [B2 C2]. pose proof (eats_le _ _ _ _ _ _ _ E2).
    destruct (seq_less t St c2 b2) as (ok & c' & b' & E'); auto; [lia|]. exists ok, c', b'. eapply i_seq_next; [exact E1|]. eapply i_seq_next; [apply e_zom; exact E2|exact E'].
  - exists false, c1, b1. apply i_seq_stop. auto.
Qed.
Lemma level_total k : forall r, left N (fun j => Nat.ltb (rank j) k) r = true -> sure r -> tot n r.
Proof.
  induction k as [k IHk] using (well_founded_induction lt_wf).
  assert (Up : forall r, sure r -> tot n r -> upto n r) by (intros r G T m Hm; destruct (Nat.eq_dec m n) as [->|]; [auto|apply IHn; [lia|auto]]).
  assert (Test : forall r f, rune_test r = Some f -> tot n r).
  { intros r f Q c b _ _ _. eexists _, _, _. eapply e_test. exact Q. }
  refine (reader_ind' _ _ _ _ _ _ _ _ _ _ _ _ _ _ _ _ _ _ _ _ _ _ _ _ _ _ _ _ _ _ _ _ _ _ _ _ _).
  - (* Any *) intros rs F Lf G c b Ln B C. cbn [left] in Lf. rewrite forallb_forall in Lf. sd G. destruct G as [[_ G1] G2]. rewrite Forall_forall in F.
    assert (G : forall r, In r rs -> sure r) by (intros r I; split; [apply G1|apply G2]; auto).
    destruct (any_total rs) with (c := c) (b := b) as (ok & c' & b' & E'); auto; [lia|]. eexists _, _, _. apply e_any. eauto.
  - (* Seq *) intros rs F Lf G c b Ln B C. rewrite left_seq_is in Lf. destruct G as [G0 G2]. gd G0. destruct G0 as [_ G1]. rewrite Forall_forall in F. cbn [reps] in G2. apply orb_true_iff in G2 as [G2|G2].
    + rewrite forallb_forall in G2. assert (G : forall r, In r rs -> sure r) by (intros r I; split; [apply G1|apply G2]; auto).
      destruct (seq_total (fun j => Nat.ltb (rank j) k) rs) with (c := c) (b := b) as (ok & c' & b' & E'); auto. eexists _, _, _. apply e_seq. eauto.
    + destruct (solid_total (fun j => Nat.ltb (rank j) k) rs) with (c := c) (b := b) as (ok & c' & b' & E'); auto. eexists _, _, _. apply e_seq. eauto.
  - (* SkipSeq *) intros a rs A F Lf G c b Ln B C. rewrite left_skip_is in Lf. sd G. destruct G as [(_ & Ga & Grs) [Gb Gs]]. apply andb_true_iff in Lf as [Lf1 Lf2]. rewrite Forall_forall in F.
    assert (G1 : sure a) by (split; auto). assert (G2 : forall r, In r rs -> sure r) by (intros r I; split; [apply Grs|apply Gs]; auto).
    destruct (seq_total (fun j => Nat.ltb (rank j) k) (interleave a rs)) with (c := c) (b := b) as (ok & c' & b' & E'); auto.
    + intros r I. rewrite interleave_flat in I. destruct I as [<-|I]; [split; auto|].
      apply in_flat_map in I as (x & I1 & [<-|[<-|[]]]); [split; auto|split; auto].
    + rewrite interleave_flat. cbn [left_seq]. rewrite Lf1. cbn [andb]. apply orb_true_iff. apply orb_true_iff in Lf2 as [Lf2|Lf2]; [left; auto|right]. clear -Lf1 Lf2. induction rs as [|x rs IH]; auto. cbn [flat_map app left_seq] in *.
      apply andb_true_iff in Lf2 as [L1 L2]. rewrite Lf1, L1. cbn [andb]. apply orb_true_iff in L2 as [-> |L2]; [reflexivity|]. rewrite (IH L2), !orb_true_r. reflexivity.
    + eexists _, _, _. apply e_skip. eauto.
  - intros x _ _. eapply Test. reflexivity.
  - (* At *) intros a A Lf G c b Ln B C. sd G. destruct (A Lf (conj (proj2 (proj1 G)) (proj2 G)) c b Ln B C) as (ok & c' & b' & E'). eexists _, _, _. eapply e_at. eauto.
  - intros Lf G c b Ln B C. eexists _, _, _. apply e_end.
  - intros x y _ _. eapply Test. reflexivity.
  - intros x y _ _. eapply Test. reflexivity.
  - (* Body *) intros d t D T Lf G c b Ln B C. sd G. cbn [base] in G. destruct G as [(UZ & Gd0 & Gt0) (Rd & Rt)]. apply andb_true_iff in UZ as [U Z]. apply negb_true_iff in Z. assert (Gd : sure d) by (split; auto). assert (Gt : sure t) by (split; auto).
    destruct (body_total n d t true b) with (c := c) (b := b) as (ok & c' & b' & E'); auto; [lia|apply B|exists []; auto|]. eexists _, _, _. eapply e_body. eauto.
  - (* BodyTail *) intros d t D T Lf G c b Ln B C. sd G. cbn [base] in G. destruct G as [(UZ & Gd0 & Gt0) (Rd & Rt)]. apply andb_true_iff in UZ as [U Z]. apply negb_true_iff in Z. assert (Gd : sure d) by (split; auto). assert (Gt : sure t) by (split; auto).
    destruct (body_total n d t false b) with (c := c) (b := b) as (ok & c' & b' & E'); auto; [lia|apply B|exists []; auto|]. eexists _, _, _. eapply e_body_tail. eauto.
  - intros i x _ [G _]. discriminate G.
  - intros x _ [G _]. discriminate G.
  - intros x y y1 _ _. eapply Test. reflexivity.
  - intros i x y _ [G _]. discriminate G.
  - (* JanusBeg *) intros i w a A Lf G c b Ln B C. sd G. destruct (A Lf (conj (proj2 (proj1 G)) (proj2 G)) c b Ln B C) as ([] & c' & b' & E').
    + destruct (eats_suffix _ _ _ _ _ _ _ E') as [x ->]. eexists _, _, _. eapply e_janus_yes. eauto.
    + eexists _, _, _. eapply e_janus_no. eauto.
  - (* JanusEnd *) intros i w Lf G c b Ln B C. destruct (has_prefix b (get [] c i)) eqn:Q.
    + apply has_prefix_iff in Q as [t ->]. eexists _, _, _. apply e_end_yes.
    + eexists _, _, _. apply e_end_no. apply has_prefix_false. auto.
  - intros x _ _ c b _ _ _. eexists _, _, _. apply e_invalid.
  - (* Lit *) intros x Lf G c b Ln B C. destruct (has_prefix b x) eqn:Q.
    + apply has_prefix_iff in Q as [t ->]. eexists _, _, _. apply e_lit_yes.
    + eexists _, _, _. apply e_lit_no. apply has_prefix_false. auto.
  - (* Many *) intros a A Lf G c b Ln B C. sd G. destruct G as [[_ G1] [Ep G2]]. assert (G : sure a) by (split; auto).
    destruct (rep_total n a) with (c := c) (b := b) as (c' & b' & E'); auto; [destruct (eps N a); auto; discriminate|lia|]. eexists _, _, _. eapply e_many. eauto.
  - intros i a A Lf G c b Ln B C. sd G. destruct (A Lf (conj (proj2 (proj1 G)) (proj2 G)) c b Ln B C) as (ok & c' & b' & E'). eexists _, _, _. eapply e_map. eauto.
  - intros x f _ _. eapply Test. reflexivity.
  - intros x a A Lf G c b Ln B C. sd G. destruct (A Lf (conj (proj2 (proj1 G)) (proj2 G)) c b Ln B C) as (ok & c' & b' & E'). eexists _, _, _. eapply e_named. eauto.
  - intros a A Lf G c b Ln B C. sd G. destruct (A Lf (conj (proj2 (proj1 G)) (proj2 G)) c b Ln B C) as (ok & c' & b' & E'). eexists _, _, _. eapply e_not. eauto.
  - intros a A Lf G c b Ln B C. sd G. destruct (A Lf (conj (proj2 (proj1 G)) (proj2 G)) c b Ln B C) as (ok & c' & b' & E'). eexists _, _, _. eapply e_opt. eauto.
  - (* Past *) intros a A Lf G c b Ln B C. sd G. cbn [base] in G. destruct G as [[U G1] G2]. assert (G : sure a) by (split; auto).
    destruct (past_total n a) with (c := c) (b := b) as (ok & c' & b' & E'); auto; [lia|]. eexists _, _, _. eapply e_past. eauto.
  - intros x _ _. eapply Test. reflexivity.
  - (* Times *) intros j a A Lf G c b Ln B C. sd G. destruct G as [[_ G1] G2]. assert (G : sure a) by (split; auto).
    destruct (times_total n a) with (k := Z.to_nat j) (c := c) (b := b) as (ok & c' & b' & E'); auto; [lia|]. eexists _, _, _. eapply e_times. eauto.
  - (* To *) intros a A Lf G c b Ln B C. sd G. destruct G as [[_ G1] G2]. assert (G : sure a) by (split; auto).
    destruct (to_total n a) with (c := c) (b := b) as (ok & c' & b' & E'); auto; [lia|]. eexists _, _, _. eapply e_to. eauto.
  - intros i x y _ [G _]. discriminate G.
  - intros x f _ [G _]. discriminate G.
  - (* Zom *) intros a A Lf G c b Ln B C. sd G. destruct G as [[_ G1] [Ep G2]]. assert (G : sure a) by (split; auto).
    destruct (rep_total n a) with (c := c) (b := b) as (c' & b' & E'); auto; [destruct (eps N a); auto; discriminate|lia|]. eexists _, _, _. eapply e_zom. eauto.
  - intros x i a A Lf G c b Ln B C. sd G. destruct (A Lf (conj (proj2 (proj1 G)) (proj2 G)) c b Ln B C) as (ok & c' & b' & E'). eexists _, _, _. eapply e_pick. eauto.
  - intros x i a A Lf G c b Ln B C. sd G. destruct (A Lf (conj (proj2 (proj1 G)) (proj2 G)) c b Ln B C) as (ok & c' & b' & E'). eexists _, _, _. eapply e_monitor. eauto.
  - (* Rule *) intros i Lf G c b Ln B C. cbn [left] in Lf. apply Nat.ltb_lt in Lf. sd G. cbn [base] in G. destruct (r_reader (get_rule e i)) as [r|] eqn:Q; [|destruct G as [[G _] _]; discriminate].
    destruct (IHk _ Lf r (ct_left _ _ _ _ _ Ct i r Q) (ct_sure i r Q) c b Ln B C) as (ok & c' & b' & E'). eexists _, _, _. eapply e_rule; eauto.
  - intros a A Lf G c b Ln B C. sd G. destruct (A Lf (conj (proj2 (proj1 G)) (proj2 G)) c b Ln B C) as (ok & c' & b' & E'). eexists _, _, _. eapply e_rule_name. eauto.
  - (* Grammar *) intros w p i Lf G c b Ln B C. cbn [left] in Lf. apply Nat.ltb_lt in Lf. sd G. cbn [base] in G. destruct (r_reader (get_rule e i)) as [r|] eqn:Q; [|destruct G as [[G _] _]; discriminate].
    destruct (IHk _ Lf r (ct_left _ _ _ _ _ Ct i r Q) (ct_sure i r Q) c b Ln B C) as (ok & c' & b' & E'). eexists _, _, _. eapply e_grammar; eauto.
Qed.
End Step.
Theorem all_total n r : sure r -> tot n r.
Proof.
  revert r. induction n as [n IH] using (well_founded_induction lt_wf). intros r G. destruct (ct_rank _ _ _ _ _ Ct) as [K HK].
  apply (level_total n) with (k := K); auto. apply left_true. intros i. apply Nat.ltb_lt. auto.
Qed.
End Total.

(** A certificate given by lists, checked by computation. *)
Definition nullable (l : list bool) (i : nat) : bool := nth i l false.
Definition level (l : list nat) (i : nat) : nat := nth i l 0%nat.
Definition certifies (u z : bool) (nl : list bool) (rk : list nat) (e : env) : bool :=
  forallb (fun i => match r_reader (get_rule e i) with
    | Some r => (negb (eps (nullable nl) r) || nullable nl i) && left (nullable nl) (fun j => Nat.ltb (level rk j) (level rk i)) r
                && fine u z (nullable nl) e r
    | None => true end) (seq 0 (length e)).
Lemma level_bound rk : exists K, forall i, (level rk i < K)%nat.
Proof.
  exists (S (list_max rk)). intros i. unfold level. destruct (nth_in_or_default i rk 0%nat) as [I| ->]; [|lia].
  pose proof (proj1 (list_max_le rk (list_max rk)) (le_n _)) as X. rewrite Forall_forall in X. specialize (X _ I). lia.
Qed.
Lemma certifies_ok u z nl rk e : certifies u z nl rk e = true -> certified u z (nullable nl) (level rk) e.
Proof.
  intros H. unfold certifies in H. rewrite forallb_forall in H.
  assert (X : forall i r, r_reader (get_rule e i) = Some r -> (negb (eps (nullable nl) r) || nullable nl i) = true /\
    left (nullable nl) (fun j => Nat.ltb (level rk j) (level rk i)) r = true /\ fine u z (nullable nl) e r = true).
  { intros i r R. assert (I : In i (seq 0 (length e))).
    { apply in_seq. split; [lia|]. destruct (Nat.le_gt_cases (length e) i) as [G|G]; [|lia]. unfold get_rule in R. rewrite nth_overflow in R by auto. discriminate. }
    specialize (H i I). rewrite R in H. apply andb_true_iff in H as [H1 H3]. apply andb_true_iff in H1 as [H1 H2]. auto. }
  split.
  - intros i r R E. destruct (X i r R) as [A _]. rewrite E in A. exact A.
  - intros i r R. apply (X i r R).
  - intros i r R. apply (X i r R).
  - apply level_bound.
Qed.

(** Reading with a certified grammar: it returns, if [u] then on well-formed texts, if [z]
    then on texts that end in a control character. *)
Theorem certified_reads {L : GoLib} u z N rank e r s a b : certified u z N rank e -> fine u z N e r = true -> at_split s a b ->
  (u = true -> wf_text b /\ forall i, wf_text (get [] (h_cells (hp s)) i)) -> (z = true -> tailed b) -> exists x s', reads e r s x s'.
Proof.
  intros Ct G H W T. apply andb_true_iff in G. pose proof (stands_split _ _ _ H) as S.
  destruct (all_total u z N rank e Ct (length b) r G (h_cells (hp s)) b eq_refl) as (ok & c' & b' & E); [split; [intros U; apply W; auto|auto]|intros U; apply W; auto|].
  destruct (eats_reads _ _ _ _ _ _ _ _ _ E S) as (x & s' & R & _). eauto.
Qed.
