(** PropMxtText.v - C105, C106: which texts MXT() reads. *)
From Verif Require Import MxtFacts PegTotal PegBytes UseFacts ExKit Mxt PropMxt.
From Coq Require Import Lia ZifyBool.

(* ------------------------------------------------------------------ C105 *)

(** C105.  On a well-formed text, with no salt left from an earlier read, Use(MXT()) reads exactly the chunks that
    stand there (SpecMxt.v) and fails without moving if there is none. *)
Theorem C105_mxt_reads_the_chunks {L : GoLib} s a b : at_split s a b -> wf_text b ->
  (forall i, wf_text (get [] (h_cells (hp s)) i)) -> get [] (h_cells (hp s)) mxt_cell = [] ->
  (exists b' s', m_chunks b b' /\ uses mxt_env mxt s None s' /\ pos (sc s') = slen (a ++ b) - slen b') \/
  ((forall b', ~ m_chunks b b') /\ exists x s', uses mxt_env mxt s (Some x) s' /\ pos (sc s') = pos (sc s)).
Proof.
  intros H W C G. destruct (certified_reads _ _ _ _ _ _ _ _ _ mxt_certified mxt_fine H (fun _ => conj W C) ltac:(discriminate)) as (x & s' & R).
  assert (P : 0 <= pos (sc s)) by (destruct H as (_ & -> & _); apply slen_nonneg).
  pose proof (stands_split _ _ _ H) as St. destruct (reads_eats mxt_env mxt _ _ _ _ _ _ mxt_covered eq_refl St R) as (c' & b' & S' & D).
  pose proof (mxt_sound _ _ _ _ _ W G D) as M. destruct x as [x|]; cbn [okx] in M.
  - right. split; [exact M|]. eexists x, _. split; [apply uses_reads; [auto|]; exists s'; split; [exact R|reflexivity]|]. reflexivity.
  - left. exists b', s'. split; [exact M|]. split; [apply uses_reads; [auto|]; exists s'; auto|]. apply (stands_pos _ _ _ _ S').
Qed.
Print Assumptions C105_mxt_reads_the_chunks.
(** What is left of the text is unique. *)
Theorem C105_rest_is_unique {L : GoLib} b b1 b2 : wf_text b -> m_chunks b b1 -> m_chunks b b2 -> b1 = b2.
Proof. apply chunks_det. Qed.
Print Assumptions C105_rest_is_unique.
Lemma uses_fun {L : GoLib} e r s x s1 y s2 : 0 <= pos (sc s) -> uses e r s x s1 -> uses e r s y s2 -> x = y /\ s1 = s2.
Proof. intros P U V. apply uses_reads in U as (t & R & ->); auto. apply uses_reads in V as (q & R2 & ->); auto. destruct (reads_fun _ _ _ _ _ _ _ R R2) as [-> ->]. auto. Qed.
(** So for a new grammar on a new Scanner. *)
Theorem C105_mxt_file {L : GoLib} b : wf_text b -> slen b < 2 ^ 63 ->
  (exists s', uses mxt_env mxt (init_st b) None s' /\ pos (sc s') = slen b) <-> m_chunks b [].
Proof.
  intros W Lt. assert (Sp : at_split (init_st b) [] b) by (repeat split; auto).
  assert (C : forall i, wf_text (get [] (h_cells (hp (init_st b))) i)) by (intros [|i]; apply wf_nil).
  destruct (C105_mxt_reads_the_chunks _ _ _ Sp W C eq_refl) as [(b' & s' & M & U & P)|(M & x & s' & U & P)].
  - cbn [app] in P. split.
    + intros (s2 & U2 & P2). destruct (uses_fun _ _ (init_st b) _ _ _ _ ltac:(cbn; lia) U U2) as [_ ->]. assert (b' = []) by (destruct b'; [auto|rewrite slen_cons in P; pose proof (slen_nonneg b'); lia]). subst b'. exact M.
    + intros M2. pose proof (chunks_det _ _ _ W M M2). subst b'. exists s'. split; auto. rewrite P. unfold slen at 2. cbn. lia.
  - split; [intros (s2 & U2 & _); destruct (uses_fun _ _ (init_st b) _ _ _ _ ltac:(cbn; lia) U U2); discriminate|]. intros M2. elim (M _ M2).
Qed.
Print Assumptions C105_mxt_file.

(* ------------------------------------------------------------------ C106 *)

(** C106.  Files written chunk by chunk are read completely: name, salt, content; the tag of a header is the salt of
    the one before. *)
Fixpoint written (tag : bytes) (l : list (bytes * bytes * bytes)) : bytes :=
  match l with
  | [] => []
  | (name, salt, content) :: t =>
      lit "//" ++ tag ++ lit " " ++ name ++ lit " --> " ++ salt ++ [x0a] ++ content ++
      match t with [] => [] | _ => x0a :: written salt t end
  end.
(** The content has no line that begins with // and the salt, and does not end with a carriage return. *)
Definition writable (k : bytes * bytes * bytes) : Prop :=
  let '(name, salt, content) := k in
  name <> [] /\ m_word name /\ m_word salt /\ ~ occurs (x0a :: content) (x0a :: lit "//" ++ salt) /\
  (forall u, content <> u ++ [x0d]).
Lemma straddle salt w r : m_word salt -> w <> [] -> w <> [x0d] -> ~ occurs w (x0a :: lit "//" ++ salt) -> m_next salt (w ++ x0a :: r) -> False.
Proof.
  intros Ws Nw Nr No (n & Hn & q & Q). destruct (Nat.le_gt_cases (length (n ++ lit "//" ++ salt)) (length w)) as [Le|Gt].
  - symmetry in Q. destruct (app_split_le _ _ _ _ Q Le) as (m & Em & _). apply No. rewrite Em. destruct Hn as [->| ->].
    + exists [], m. reflexivity.
    + exists [x0d], m. reflexivity.
  - destruct (app_split_le _ _ _ _ Q (Nat.lt_le_incl _ _ Gt)) as (m & Em & Em'). destruct m as [|y m]; [rewrite app_nil_r in Em; rewrite Em in Gt; lia|].
    injection Em' as <- _. destruct Hn as [->| ->].
    + destruct w as [|w0 w]; [congruence|]. injection Em as _ Em. assert (X : In x0a (x2f :: x2f :: salt)) by (rewrite Em; apply in_or_app; right; left; auto).
      destruct X as [X|[X|X]]; try discriminate. unfold m_word in Ws. rewrite Forall_forall in Ws. specialize (Ws _ X). vm_compute in Ws. discriminate.
    + destruct w as [|w0 w]; [congruence|]. injection Em as <- Em. destruct w as [|w1 w]; [congruence|]. injection Em as <- Em. assert (X : In x0a (x2f :: x2f :: salt)) by (rewrite Em; apply in_or_app; right; left; auto).
      destruct X as [X|[X|X]]; try discriminate. unfold m_word in Ws. rewrite Forall_forall in Ws. specialize (Ws _ X). vm_compute in Ws. discriminate.
Qed.
Lemma straddle_end salt w : ~ occurs w (x0a :: lit "//" ++ salt) -> ~ m_next salt w.
Proof.
  intros No (n & Hn & q & ->). apply No. destruct Hn as [->| ->].
  - exists [], q. rewrite <- !app_assoc. reflexivity.
  - exists [x0d], q. rewrite <- !app_assoc. reflexivity.
Qed.
Lemma occurs_more u w p : occurs w p -> occurs (u ++ w) p.
Proof. intros (a & t & ->). exists (u ++ a), t. rewrite <- app_assoc. reflexivity. Qed.
Lemma written_content name salt content r : writable (name, salt, content) -> r = [] \/ m_next salt r ->
  ~ m_next salt ([x0a] ++ content ++ r) /\ (forall u v, content = u ++ v -> v <> [] -> ~ m_next salt (v ++ r)).
Proof.
  intros (Nn & Wn & Ws & No & Cr) En.
  assert (Cut : forall v, v <> [] -> v <> [x0d] -> ~ occurs v (x0a :: lit "//" ++ salt) -> ~ m_next salt (v ++ r)).
  { intros v V V2 No2. destruct En as [->|(n & Hn & q & ->)]; [rewrite app_nil_r; apply straddle_end; auto|]. rewrite <- !app_assoc. destruct Hn as [->| ->].
    - intros X. eapply (straddle salt v); eauto.
    - intros X. change (v ++ [x0d; x0a] ++ lit "//" ++ salt ++ q) with (v ++ [x0d] ++ x0a :: lit "//" ++ salt ++ q) in X. rewrite app_assoc in X.
      eapply (straddle salt (v ++ [x0d])); eauto.
      + intros Y. apply app_eq_nil in Y as [_ Y]. discriminate.
      + intros Y. change [x0d] with ([] ++ [x0d]) in Y at 2. apply app_inj_tail in Y as [Y _]. congruence.
      + intros (a & t & Y). destruct t as [|z t] using rev_ind.
        * rewrite app_nil_r in Y. change (x0a :: lit "//" ++ salt) with ([x0a] ++ lit "//" ++ salt) in Y. destruct salt as [|z salt] using rev_ind.
          -- rewrite app_nil_r in Y. change ([x0a] ++ lit "//") with ([x0a; x2f] ++ [x2f]) in Y. rewrite app_assoc in Y. apply app_inj_tail in Y as [_ Y]. discriminate.
          -- rewrite !app_assoc in Y. apply app_inj_tail in Y as [_ Y]. subst z. apply Forall_app in Ws as [_ Ws]. inversion_clear Ws as [|? ? Z _]. vm_compute in Z. discriminate.
        * rewrite !app_assoc in Y. apply app_inj_tail in Y as [Y _]. apply No2. exists a, t. rewrite <- app_assoc in Y. exact Y. }
  split.
  - rewrite app_assoc. apply Cut; [discriminate|discriminate|]. exact No.
  - intros u v Q V. apply Cut; auto; [intros ->; elim (Cr u); auto|]. intros X. apply No. rewrite Q. change (x0a :: u ++ v) with ((x0a :: u) ++ v). apply occurs_more. exact X.
Qed.
Lemma written_note : m_note (lit " ") /\ ~ occurs (lit " " ++ [] ++ lit "--") (lit "-->").
Proof.
  split.
  - split; [exists x20, []; split; [reflexivity|unfold m_solid; vm_compute; intros; discriminate]|exists [], x20; split; [reflexivity|unfold m_solid; vm_compute; intros; discriminate]].
  - intros (a & t & Q). cbv [lit] in Q. cbn in Q. do 4 (destruct a as [|? a]; cbn [app] in Q; [discriminate Q|]; try (injection Q as _ Q)); try discriminate Q.
Qed.
Lemma written_salt salt : m_word salt -> m_salt salt (lit " " ++ salt ++ []).
Proof. intros Ws. right. exists (lit " "), []. repeat split; auto; try discriminate; repeat constructor. Qed.
Lemma written_chunk tag name salt content r : m_word tag -> writable (name, salt, content) -> r = [] \/ m_next salt r ->
  m_chunk (lit "//" ++ tag ++ lit " " ++ name ++ lit " --> " ++ salt ++ [x0a] ++ content ++ r) r.
Proof.
  intros Wt Wr En. destruct (written_content _ _ _ _ Wr En) as [N1 N2]. destruct Wr as (Nn & Wn & Ws & No & Cr). set (h := lit "//" ++ tag ++ lit " " ++ name ++ lit " " ++ [] ++ lit "-->" ++ (lit " " ++ salt ++ [])).
  replace (lit "//" ++ tag ++ lit " " ++ name ++ lit " --> " ++ salt ++ [x0a] ++ content ++ r) with (h ++ [x0a] ++ content ++ r).
  2:{ unfold h. rewrite app_nil_r, <- !app_assoc. reflexivity. }
  apply (mc_content h salt); auto; [|left; reflexivity].
  destruct written_note. unfold h. constructor; auto using written_salt; try (repeat constructor; fail); try discriminate.
Qed.
Lemma written_chunks l : forall k tag, m_word tag -> Forall writable (k :: l) -> m_chunks (written tag (k :: l)) [].
Proof.
  induction l as [|k2 l IH]; intros k tag Wt F.
  - destruct k as [[name salt] content]. inversion_clear F as [|? ? K _]. cbn [written]. exists []. split; [apply written_chunk; auto|]. apply mm_stop. intros n b1 b' [->| ->]; discriminate.
  - destruct k as [[name salt] content]. inversion_clear F as [|? ? K F2]. assert (Ws : m_word salt) by apply K. destruct (IH k2 salt Ws F2) as (b1 & Ch & M).
    assert (Hd : exists q, written salt (k2 :: l) = lit "//" ++ salt ++ q) by (destruct k2 as [[n2 s2] c2]; cbn [written]; eexists; reflexivity).
    exists (x0a :: written salt (k2 :: l)). split.
    + cbn [written]. apply written_chunk; auto. right. destruct Hd as [q Hd]. exists [x0a]. split; [left; auto|]. exists q. cbn [written] in Hd. rewrite Hd. rewrite <- !app_assoc. reflexivity.
    + apply (mm_next [x0a] _ b1); auto. left. reflexivity.
Qed.
Theorem C106_written_file_is_read {L : GoLib} tag k l : m_word tag -> Forall writable (k :: l) -> wf_text (written tag (k :: l)) ->
  slen (written tag (k :: l)) < 2 ^ 63 ->
  exists s', uses mxt_env mxt (init_st (written tag (k :: l))) None s' /\ pos (sc s') = slen (written tag (k :: l)).
Proof. intros Wt F W Lt. apply C105_mxt_file; auto. apply written_chunks; auto. Qed.
Print Assumptions C106_written_file_is_read.
(** Two chunks; the first content has a line that begins with // but not with its salt. *)
Example C106_case {L : GoLib} : let l := [(lit "a", lit "end", lit "//x"); (lit "b", [], lit "y")] in
  Forall writable l /\ wf_text (written [] l) /\ m_chunks (written [] l) [] /\
  exists s', uses mxt_env mxt (init_st (written [] l)) None s' /\ pos (sc s') = slen (written [] l).
Proof.
  intros l.
  assert (F : Forall writable l).
  { repeat constructor; try discriminate; try (intros (a & t & Q); cbv [lit] in Q; cbn in Q; do 6 (destruct a as [|? a]; cbn [app] in Q; [discriminate Q|]; try (injection Q as _ Q)); try discriminate Q; fail);
    intros u Q; do 4 (destruct u as [|? u]; cbn [app] in Q; [discriminate Q|]; try (injection Q as _ Q)); try discriminate Q. }
  split; [exact F|]. split; [apply valid_wf; vm_compute; reflexivity|]. split; [apply written_chunks; [constructor|exact F]|].
  eexists. split; [run 300%nat|vm_compute; reflexivity].
Qed.
(** A header whose arrow is missing. *)
Example C105_case {L : GoLib} : let b := lit "// a b" in wf_text b /\ (forall b', ~ m_chunks b b') /\ exists x s', uses mxt_env mxt (init_st b) (Some x) s'.
Proof.
  intros b. assert (W : wf_text b) by (apply valid_wf; vm_compute; reflexivity). split; [exact W|].
  assert (U : exists x s', uses mxt_env mxt (init_st b) (Some x) s') by (eexists _, _; run 300%nat). split; [|exact U].
  destruct U as (x & s' & U). destruct (C105_mxt_reads_the_chunks (init_st b) [] b) as [(b1 & s2 & _ & U2 & _)|[N _]]; auto; [repeat split; reflexivity|intros [|i]; apply wf_nil|].
  destruct (uses_fun _ _ (init_st b) _ _ _ _ ltac:(cbn; lia) U U2); discriminate.
Qed.
