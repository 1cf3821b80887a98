(** MxtParts.v - the calls of functions mapped to Name, EmptyContent and Content of grammar/mxt.go. *)
From Verif Require Export MxtBlame Silent.
From Verif Require Import MxtFacts JsonBlame PegTotal PegBytes Mxt LuaFacts LuaLex Utf8Facts ReadFacts PropMxt ReaderLaws.
From Coq Require Import Lia ZifyBool.

(* ------------------------------------------------- the parts of a text (no readers) *)

(** A header (SpecMxt.v) with the text [l] before its name [n]. *)
Inductive m_head (salt l n : bytes) : bytes -> Prop :=
| mhd m g c ar z : l = lit "//" ++ m ++ g -> m_word m -> g <> [] -> m_gap g -> n <> [] -> m_word n -> m_note c -> m_word ar ->
    ~ occurs (c ++ ar ++ lit "--") (lit "-->") -> m_salt salt z ->
    m_head salt l n (l ++ n ++ c ++ ar ++ lit "-->" ++ z).
(** What is found in a chunk: its name, and its content; with [f_empty] there is none. *)
Record found := mkFound { f_name : token; f_content : token; f_empty : bool }.
(** The place of [x], behind [l], in a text that begins at [p]. *)
Definition place (p : Z) (l x : bytes) : token := mkTok (p + slen l) (p + slen l + slen x).
(** A chunk as in [m_chunk] that begins at [p]. *)
Inductive m_found (p : Z) : bytes -> bytes -> found -> Prop :=
| mf_empty h salt l n b' : m_head salt l n h -> b' = [] \/ m_next salt b' -> m_found p (h ++ b') b' (mkFound (place p l n) (place p h []) true)
| mf_content h salt l n nl c b' : m_head salt l n h -> m_newline nl -> b' = [] \/ m_next salt b' ->
    ~ m_next salt (nl ++ c ++ b') -> (forall u v, c = u ++ v -> v <> [] -> ~ m_next salt (v ++ b')) ->
    m_found p (h ++ nl ++ c ++ b') b' (mkFound (place p l n) (place p (h ++ nl) c) false).
(** Chunks with newlines between them. *)
Inductive m_list (p : Z) : bytes -> bytes -> list found -> Prop :=
| ml_last b b' f : m_found p b b' f -> m_list p b b' [f]
| ml_more b n b1 b' f fs : m_found p b (n ++ b1) f -> m_newline n -> m_list (p + slen b - slen b1) b1 b' fs -> m_list p b b' (f :: fs).

Lemma head_header salt l n h : m_head salt l n h -> m_header salt h.
Proof. intros H. destruct H as [m g c ar z -> Wm Ng Gg Nn Wn Nt Wa Ea Sa]. rewrite <- !app_assoc. constructor; auto. Qed.
Lemma found_chunk p b b' f : m_found p b b' f -> m_chunk b b'.
Proof. intros []; [eapply mc_empty|eapply mc_content]; eauto using head_header. Qed.

(* ------------------------------------------------- the calls *)

(** grammar.go:103-105 (Rule.Map) on the rule with field position [i]. *)
Definition map_rule (i id : nat) (e : env) : env := put rule0 e i (rule_map e id (get_rule e i)).
(** MXT() with functions mapped to Name, EmptyContent and Content (as grammar/mxt_test.go:123-134 does). *)
Definition mxt_heard {L : GoLib} (kn ke kc : nat) : env := map_rule mContent kc (map_rule mEmptyContent ke (map_rule mName kn mxt_env)).
Definition calls_of (kn ke kc : nat) (f : found) : list (nat * token) := [(kn, f_name f); (if f_empty f then ke else kc, f_content f)].

Section Parts.
Context {L : GoLib} (kn ke kc : nat).
Notation E := mxt_env.
Notation M := (mxt_heard kn ke kc).
Notation cell := mxt_cell.
Definition mute_ids : list nat := [mMarker; mNextMarker; mComment; mArrow; mSalt; mWord; mWordChar; mNL].
Definition mute (i : nat) : bool := existsb (Nat.eqb i) mute_ids.
Lemma mute_rules i r : mute i = true -> r_reader (get_rule E i) = Some r -> r_reader (get_rule M i) = Some r /\ rallP (silent mute) r.
Proof.
  intros H Q. unfold mute, mute_ids in H. cbn [existsb] in H.
  repeat (apply orb_true_iff in H as [H|H]; [apply Nat.eqb_eq in H; subst i; revert Q; vm_compute; intros Q; injection Q as <-; split; [reflexivity|repeat (split; auto)]|]).
  discriminate H.
Qed.
Lemma quietly i c b ok c' b' N : iallP (silent mute) i -> eats E i c b ok c' b' -> traces M N i c b ok c' b' [].
Proof. intros Q D. eapply silent_traces; eauto. apply mute_rules. Qed.
Lemma name_m : r_reader (get_rule M mName) = Some (RMap kn (RRule mWord)). Proof. reflexivity. Qed.
Lemma empty_m : r_reader (get_rule M mEmptyContent) = Some (RMap ke (RAny [RAtEnd; RAt (RRule mNextMarker)])). Proof. reflexivity. Qed.
Lemma content_m : r_reader (get_rule M mContent) = Some (RMap kc (RTo (RAny [RRule mNextMarker; RAtEnd]))). Proof. reflexivity. Qed.
Lemma header_m : r_reader (get_rule M mHeader) = Some (RSeq [RRule mMarker; RMany blank; RRule mName; RRule mComment; RRule mArrow; ROpt (RRule mSalt)]). Proof. reflexivity. Qed.
Lemma chunk_m : r_reader (get_rule M mChunk) = Some (RSeq [RRule mHeader; RAny [RRule mEmptyContent; RSeq [RRule mNL; RRule mContent]]]). Proof. reflexivity. Qed.
Lemma chunks_m : r_reader (get_rule M mChunks) = Some (RSeq [RRule mChunk; RZom (RSeq [RRule mNL; RRule mChunk])]). Proof. reflexivity. Qed.
Lemma name_is : r_reader (get_rule E mName) = Some (RRule mWord). Proof. reflexivity. Qed.

Context (N : Z).
Notation tok b b' := (mkTok (N - slen b) (N - slen b')).
Lemma name_calls c b c' b' : eats E (IR (RRule mName)) c b true c' b' -> traces M N (IR (RRule mName)) c b true c' b' [ACall kn (tok b b')].
Proof.
  intros D. eapply te_rule; [apply name_m|]. apply (te_map M kn (RRule mWord) c b true c' b' N []). apply quietly; [split; [reflexivity|exact I]|]. eapply rule_inv; [apply name_is|exact D].
Qed.
Lemma name_silent c b c' b' : eats E (IR (RRule mName)) c b false c' b' -> traces M N (IR (RRule mName)) c b false c' b [].
Proof.
  intros D. eapply te_rule; [apply name_m|]. apply (te_map M kn (RRule mWord) c b false c' b' N []). apply quietly; [split; [reflexivity|exact I]|]. eapply rule_inv; [apply name_is|exact D].
Qed.
Lemma seq_silent r rs c b c1 b1 ok c' b' l : eats E (IR r) c b true c1 b1 -> iallP (silent mute) (IR r) -> traces M N (ISeq rs) c1 b1 ok c' b' l -> traces M N (ISeq (r :: rs)) c b ok c' b' l.
Proof. intros D Q T. exact (ti_seq_next M r rs c b c1 b1 ok c' b' N [] l (quietly _ _ _ _ _ _ N Q D) T). Qed.
Lemma stop_silent r rs c b c' b' : iallP (silent mute) (IR r) -> eats E (IR r) c b false c' b' -> traces M N (ISeq (r :: rs)) c b false c' b' [].
Proof. intros Q D. apply ti_seq_stop. apply quietly; auto. Qed.

(** A header as far as its name [n] behind [l]; [t] is left. *)
Definition m_begun (l n t : bytes) : Prop := exists m g, l = lit "//" ++ m ++ g /\ m_word m /\ g <> [] /\ m_gap g /\ n <> [] /\ m_word n /\ ~ starts m_solid t.
Lemma zom_seq_inv e rs c b ok c' b' : eats e (IR (RSeq rs)) c b ok c' b' -> exists b1, eats e (ISeq rs) c b ok c' b1 /\ b' = if ok then b1 else b.
Proof. intros D. inversion D; subst; try discriminate. eauto. Qed.
Lemma tok_place (b l n t : bytes) : b = l ++ n ++ t -> tok (n ++ t) t = place (N - slen b) l n.
Proof. intros ->. unfold place. rewrite !slen_app. f_equal; lia. Qed.
Lemma header_yes c b c' t : wf_text b -> get [] c cell = [] -> eats E (IR (RRule mHeader)) c b true c' t ->
  exists h salt l n, b = h ++ t /\ m_head salt l n h /\ get [] c' cell = salt /\ wf_text t /\ traces M N (IR (RRule mHeader)) c b true c' t [ACall kn (place (N - slen b) l n)].
Proof.
  intros W Ce D. apply (rule_inv _ _ _ _ _ _ _ _ header_is), MxtFacts.seq_inv in D.
  apply next_inv in D as (c1 & b1 & D1 & D). destruct (lit_cases (lit "//") b) as [[b0 E0]|Nm]; [|destruct (out_eats _ _ _ _ _ _ _ _ _ (o_marker_no b Nm) D1) as [X _]; discriminate].
  subst b. assert (W0 : wf_text b0) by (apply (wf_rest (lit "//")); [apply wf_ascii; repeat constructor; vm_compute; auto|exact W]).
  destruct (byte_span solidb b0) as (m & b2 & -> & G1 & N1). destruct (out_eats _ _ _ _ _ _ _ _ _ (o_marker m b2 W0 G1 N1) D1) as (_ & -> & <-). destruct (wf_word _ _ W0 N1) as [_ W2].
  apply next_inv in D as (c1 & b1 & D2 & D). destruct (byte_span (is 0x20) b2) as (g & b3 & -> & G2 & N2). destruct (out_eats _ _ _ _ _ _ _ _ _ (o_gaps g b3 G2 N2) D2) as (Og & -> & <-).
  assert (W3 : wf_text b3) by (eapply wf_rest; [apply (wf_gap g); auto|auto]).
  apply next_inv in D as (c1 & b1 & D3 & D). destruct (byte_span solidb b3) as (n & b4 & -> & G3 & N3). destruct (out_eats _ _ _ _ _ _ _ _ _ (o_name _ n b4 W3 eq_refl G3 N3) D3) as (On & -> & <-). destruct (wf_word _ _ W3 N3) as [_ W4].
  apply next_inv in D as (c1 & b1 & D4 & D). destruct (first_cases tip b4) as [(v & b5 & -> & F)|Nc]; [discriminate| |destruct (out_eats _ _ _ _ _ _ _ _ _ (o_comment_none b4 W4 Nc) D4) as [X _]; discriminate].
  apply first_early in F. destruct (last_word v) as (nt & ar & -> & Cl & Wd). rewrite <- app_assoc in *. destruct (wf_note _ _ _ Cl W4) as (Wn & Wa & W5).
  destruct (out_eats _ _ _ _ _ _ _ _ _ (o_comment nt ar b5 Wn Wa Cl Wd F) D4) as (_ & -> & <-).
  apply next_inv in D as (c1 & b1 & D5 & D). assert (Fa : ~ early ar) by (intros X; apply F, early_more; auto).
  assert (Oa : out E (IR (RRule mArrow)) (ar ++ tip ++ b5) true b5).
  { apply (o_rule E mArrow mxt_arrow); [reflexivity|]. pose proof (o_arrow ar b5 Wa Fa) as O. rewrite (proj2 (word_is ar) Wd) in O. exact O. }
  destruct (out_eats _ _ _ _ _ _ _ _ _ Oa D5) as (_ & -> & <-).
  apply next_inv in D as (c1 & b1 & D6 & D). apply MxtFacts.nil_inv in D as (_ & -> & ->). destruct (salt_sound _ _ _ _ W5 D6) as (z & salt & -> & Wt & Sa).
  assert (Nt : m_note nt).
  { destruct nt as [|x nt].
    - exfalso. cbn [app] in N3. destruct ar as [|y ar]; [vm_compute in N3; discriminate|]. inversion Wd; subst. apply solidb_is in H1. cbn in N3. congruence.
    - split; [exists x, nt; split; [auto|]; apply solidb_no; exact N3|]. destruct Cl as [Cl|Cl]; [discriminate|exact Cl]. }
  exists ((lit "//" ++ m ++ g) ++ n ++ nt ++ ar ++ tip ++ z), (get [] c1 cell), (lit "//" ++ m ++ g), n. split; [rewrite <- !app_assoc; reflexivity|]. split; [|split; [auto|split; [auto|]]].
  - econstructor; eauto; try (apply word_is; auto; fail); try (apply gap_is; auto; fail).
    + intros ->. discriminate.
    + intros ->. discriminate.
    + unfold early in F. rewrite <- app_assoc in F. exact F.
    + destruct Sa as [[-> ->]|[-> Sa]]; [left; auto|]. rewrite get_put_same. exact Sa.
  - rewrite <- (tok_place _ (lit "//" ++ m ++ g) n (nt ++ ar ++ tip ++ z ++ b1)) by (rewrite <- !app_assoc; reflexivity).
    apply (te_rule M _ _ _ _ _ _ _ _ _ header_m). apply (te_seq M _ c _ true c1 b1).
    apply (seq_silent _ _ _ _ _ _ _ _ _ _ D1 ltac:(split; [reflexivity|exact I])). apply (seq_silent _ _ _ _ _ _ _ _ _ _ D2 ltac:(repeat split)).
    apply (ti_seq_next M _ _ _ _ _ _ _ _ _ N [_] [] (name_calls _ _ _ _ D3)).
    apply (seq_silent _ _ _ _ _ _ _ _ _ _ D4 ltac:(split; [reflexivity|exact I])). apply (seq_silent _ _ _ _ _ _ _ _ _ _ D5 ltac:(split; [reflexivity|exact I])).
    apply (seq_silent _ _ _ _ _ _ _ _ _ _ D6 ltac:(repeat split; reflexivity)). apply ti_seq_nil.
Qed.
(** A header that fails: nothing is called, or the function of Name. *)
Definition leaves (b : bytes) (l : list act) : Prop := l = [] \/ exists u n t, b = u ++ n ++ t /\ m_begun u n t /\ l = [ACall kn (place (N - slen b) u n)].
Lemma header_no c b c' t : wf_text b -> eats E (IR (RRule mHeader)) c b false c' t -> exists l, traces M N (IR (RRule mHeader)) c b false c' t l /\ leaves b l.
Proof.
  intros W D. apply (rule_inv _ _ _ _ _ _ _ _ header_is), zom_seq_inv in D as (bx & D & ->).
  assert (Top : forall l, traces M N (ISeq [RRule mMarker; RMany blank; RRule mName; RRule mComment; RRule mArrow; ROpt (RRule mSalt)]) c b false c' bx l -> leaves b l ->
    exists l, traces M N (IR (RRule mHeader)) c b false c' b l /\ leaves b l).
  { intros l T Lv. exists l. split; auto. apply (te_rule M _ _ _ _ _ _ _ _ _ header_m). apply (te_seq M _ c b false c' bx N l T). }
  apply seq_cons in D as [[_ D1]|(c1 & b1 & D1 & D)].
  { apply (Top []); [|left; auto]. apply stop_silent; auto. split; [reflexivity|exact I]. }
  destruct (lit_cases (lit "//") b) as [[b0 E0]|Nm]; [|destruct (out_eats _ _ _ _ _ _ _ _ _ (o_marker_no b Nm) D1) as [X _]; discriminate].
  subst b. assert (W0 : wf_text b0) by (apply (wf_rest (lit "//")); [apply wf_ascii; repeat constructor; vm_compute; auto|exact W]).
  destruct (byte_span solidb b0) as (m & b2 & -> & G1 & N1). destruct (out_eats _ _ _ _ _ _ _ _ _ (o_marker m b2 W0 G1 N1) D1) as (_ & -> & <-). destruct (wf_word _ _ W0 N1) as [_ W2].
  apply seq_cons in D as [[_ D2]|(c1 & b1 & D2 & D)].
  { apply (Top []); [|left; auto]. apply (seq_silent _ _ _ _ _ _ _ _ _ _ D1 ltac:(split; [reflexivity|exact I])). apply stop_silent; auto. repeat split. }
  destruct (byte_span (is 0x20) b2) as (g & b3 & -> & G2 & N2). destruct (out_eats _ _ _ _ _ _ _ _ _ (o_gaps g b3 G2 N2) D2) as (Og & -> & <-).
  assert (W3 : wf_text b3) by (eapply wf_rest; [apply (wf_gap g); auto|auto]).
  apply seq_cons in D as [[_ D3]|(c1 & b1 & D3 & D)].
  { destruct (byte_span solidb b3) as (n & b4 & -> & G3 & N3). destruct (out_eats _ _ _ _ _ _ _ _ _ (o_name _ n b4 W3 eq_refl G3 N3) D3) as (On & -> & <-).
    destruct n; [|discriminate]. apply (Top []); [|left; auto]. apply (seq_silent _ _ _ _ _ _ _ _ _ _ D1 ltac:(split; [reflexivity|exact I])). apply (seq_silent _ _ _ _ _ _ _ _ _ _ D2 ltac:(repeat split)).
    apply ti_seq_stop. apply (name_silent _ _ _ _ D3). }
  destruct (byte_span solidb b3) as (n & b4 & -> & G3 & N3). destruct (out_eats _ _ _ _ _ _ _ _ _ (o_name _ n b4 W3 eq_refl G3 N3) D3) as (On & -> & <-).
  assert (Lv : leaves (lit "//" ++ m ++ g ++ n ++ b4) [ACall kn (tok (n ++ b4) b4)]).
  { right. exists (lit "//" ++ m ++ g), n, b4. split; [rewrite <- !app_assoc; reflexivity|]. split.
    - exists m, g. split; auto. split; [apply word_is; auto|]. split; [intros ->; discriminate|]. split; [apply gap_is; auto|]. split; [intros ->; discriminate|]. split; [apply word_is; auto|]. apply not_starts_solid. auto.
    - f_equal. f_equal. apply tok_place. rewrite <- !app_assoc. reflexivity. }
  refine (Top _ _ Lv). apply (seq_silent _ _ _ _ _ _ _ _ _ _ D1 ltac:(split; [reflexivity|exact I])). apply (seq_silent _ _ _ _ _ _ _ _ _ _ D2 ltac:(repeat split)).
  apply (ti_seq_next M _ _ _ _ _ _ _ _ _ N [_] [] (name_calls _ _ _ _ D3)). apply quietly; auto. cbn [iallP]. repeat constructor.
Qed.
Lemma head_begun salt l n h t : m_head salt l n h -> exists q, h ++ t = l ++ n ++ q /\ m_begun l n q.
Proof.
  intros H. destruct H as [m g c ar z El Wm Ng Gg Nn Wn Nt Wa Ea Sa]. exists (c ++ ar ++ lit "-->" ++ z ++ t). split; [rewrite <- !app_assoc; reflexivity|].
  exists m, g. repeat (split; auto). destruct Nt as [(x & r & -> & X) _]. intros (y & q & Q & Y). injection Q as <- _. auto.
Qed.
Lemma mapped i k r c b ok c' b' : r_reader (get_rule E i) = Some r -> r_reader (get_rule M i) = Some (RMap k r) -> rallP (silent mute) r -> eats E (IR (RRule i)) c b ok c' b' ->
  traces M N (IR (RRule i)) c b ok c' (if ok then b' else b) (if ok then [ACall k (tok b b')] else []).
Proof. intros R1 R2 Q D. eapply te_rule; [exact R2|]. apply (te_map M k r c b ok c' b' N []). apply quietly; auto. exact (rule_inv _ _ _ _ _ _ _ _ R1 D). Qed.
Lemma empty_calls c b ok c' b' : eats E (IR (RRule mEmptyContent)) c b ok c' b' -> traces M N (IR (RRule mEmptyContent)) c b ok c' (if ok then b' else b) (if ok then [ACall ke (tok b b')] else []).
Proof. apply (mapped _ _ _ _ _ _ _ _ empty_is empty_m). repeat constructor. Qed.
Lemma content_calls c b ok c' b' : eats E (IR (RRule mContent)) c b ok c' b' -> traces M N (IR (RRule mContent)) c b ok c' (if ok then b' else b) (if ok then [ACall kc (tok b b')] else []).
Proof. apply (mapped _ _ _ _ _ _ _ _ content_is content_m). repeat constructor. Qed.
Lemma empty_miss c b c' b' : eats E (IR (RRule mEmptyContent)) c b false c' b' -> traces M N (IR (RRule mEmptyContent)) c b false c' b [].
Proof. apply empty_calls. Qed.
Lemma empty_hit c b c' b' : eats E (IR (RRule mEmptyContent)) c b true c' b' -> traces M N (IR (RRule mEmptyContent)) c b true c' b' [ACall ke (tok b b')].
Proof. apply empty_calls. Qed.
Lemma content_hit c b c' b' : eats E (IR (RRule mContent)) c b true c' b' -> traces M N (IR (RRule mContent)) c b true c' b' [ACall kc (tok b b')].
Proof. apply content_calls. Qed.
Lemma nl_silent : iallP (silent mute) (IR (RRule mNL)). Proof. split; [reflexivity|exact I]. Qed.
Lemma any_step e r rs c b ok c' b' : eats e (IR (RAny (r :: rs))) c b ok c' b' -> eats e (IR r) c b true c' b' /\ ok = true \/ exists c1 b1 b2, eats e (IR r) c b false c1 b1 /\ eats e (IAny rs) c1 b1 ok c' b2 /\ b' = if ok then b2 else b.
Proof.
  intros D. assert (Q : exists b2, eats e (IAny (r :: rs)) c b ok c' b2 /\ b' = if ok then b2 else b) by (inversion D; subst; try discriminate; eauto). destruct Q as (b2 & Q & ->).
  apply any_cons in Q as [[-> H]|(c1 & b1 & H1 & H2)]; [auto|]. right. exists c1, b1, b2. auto.
Qed.
Lemma any_last e r c b ok c' b' : eats e (IAny [r]) c b ok c' b' -> eats e (IR r) c b ok c' b'.
Proof. intros D. apply any_cons in D as [[-> D]|(c1 & b1 & D1 & D2)]; [auto|]. inversion D2; subst. auto. Qed.
(** EmptyContent as it is. *)
Lemma empty_stays c b ok c' b' : eats E (IR (RRule mEmptyContent)) c b ok c' b' -> b' = b.
Proof.
  intros D. apply (rule_inv _ _ _ _ _ _ _ _ empty_is) in D. apply any_step in D as [[D _]|(c1 & b1 & b2 & D1 & D2 & ->)]; [inversion D; subst; auto; discriminate|].
  destruct ok; auto. apply any_last in D2. assert (b1 = b) by (inversion D1; subst; auto; discriminate). subst b1. inversion D2; subst; auto; discriminate.
Qed.
Lemma empty_yes c salt t : get [] c cell = salt -> MxtFacts.ends salt t -> exists c', eats E (IR (RRule mEmptyContent)) c t true c' t.
Proof.
  intros G [->|X].
  - exists c. apply (e_rule E _ _ c _ true _ _ empty_is). apply (e_any E _ c [] true c []). apply i_any_hit. exact (e_end E c []).
  - destruct (next_cases salt t) as [(n & v & Hn & Et)|Nx]; [|tauto]. exists (put [] c cell []). apply (e_rule E _ _ c _ true _ _ empty_is). apply (e_any E _ c t true (put [] c cell []) t).
    eapply i_any_next with (c1 := c) (b1 := t).
    + pose proof (e_end E c t) as Z. replace (no_text t) with false in Z; [exact Z|]. apply next_first in X as (x & q & -> & _). reflexivity.
    + apply i_any_hit. apply (e_at E _ c t true (put [] c cell []) v). rewrite Et. apply nm_yes; auto.
Qed.
Lemma rest_calls c b ok c' b' : eats E (IR rest_reader) c b ok c' b' ->
  (ok = true /\ b' = b /\ traces M N (IR rest_reader) c b true c' b [ACall ke (tok b b)]) \/
  (ok = true /\ exists n q, m_newline n /\ b = n ++ q /\ traces M N (IR rest_reader) c b true c' b' [ACall kc (tok q b')]) \/
  (ok = false /\ traces M N (IR rest_reader) c b false c' b []).
Proof.
  intros D. apply any_step in D as [[D ->]|(c1 & b1 & b2 & D1 & D2 & Eb)].
  - left. split; auto. pose proof (empty_stays _ _ _ _ _ D). subst b'. split; auto. apply (te_any M _ c b true c' b N). apply ti_any_hit. apply (empty_hit _ _ _ _ D).
  - right. pose proof (empty_stays _ _ _ _ _ D1). subst b1. apply empty_miss in D1. apply any_last in D2.
    assert (Top : forall l, traces M N (IR (RSeq [RRule mNL; RRule mContent])) c1 b ok c' b2 l -> traces M N (IR rest_reader) c b ok c' b' l).
    { intros l T. subst b'. apply (te_any M _ c b ok c' b2 N). refine (ti_any_next M _ _ c b c1 b ok c' b2 N [] l D1 _). destruct ok; [apply ti_any_hit; exact T|].
      rewrite <- (app_nil_r l). eapply ti_any_next; [exact T|apply ti_any_nil]. }
    destruct (zom_seq_inv _ _ _ _ _ _ _ D2) as (b3 & D3 & E3). apply seq_cons in D3 as [[-> D3]|(c2 & b4 & D3 & D4)].
    + right. split; auto. subst b2. cbn [andb] in Eb. subst b'. apply Top. apply (te_seq M _ c1 b false c' b3 N []). apply stop_silent; auto. apply nl_silent.
    + assert (Hn : exists n, m_newline n /\ b = n ++ b4).
      { destruct (nl_cases b) as [(n & q & Hn & ->)|Nn]; [|destruct (out_eats _ _ _ _ _ _ _ _ _ (o_nl_no b Nn) D3); discriminate]. destruct (out_eats _ _ _ _ _ _ _ _ _ (o_nl n q Hn) D3) as (_ & _ & <-). eauto. }
      destruct Hn as (n & Hn & E4). apply seq_cons in D4 as [[-> D4]|(c3 & b5 & D4 & D5)].
      * right. split; auto. subst b2 b'. apply Top. apply (te_seq M _ c1 b false c' b4 N []). apply (seq_silent _ _ _ _ _ _ _ _ _ _ D3 nl_silent). apply ti_seq_stop. apply (content_calls _ _ _ _ _ D4).
      * apply seq_nil in D5 as (-> & -> & ->). left. split; auto. exists n, b4. split; auto. split; auto. subst b2 b'. apply Top. apply (te_seq M _ c1 b true c3 b5 N).
        apply (seq_silent _ _ _ _ _ _ _ _ _ _ D3 nl_silent). apply (ti_seq_next M _ _ _ _ _ _ _ _ _ N [_] [] (content_hit _ _ _ _ D4)). apply ti_seq_nil.
Qed.
Definition acts_of (f : found) : list act := [ACall kn (f_name f); ACall (if f_empty f then ke else kc) (f_content f)].
Lemma chunk_no c b c' b' : wf_text b -> get [] c cell = [] -> eats E (IR (RRule mChunk)) c b false c' b' -> exists l, traces M N (IR (RRule mChunk)) c b false c' b' l /\ leaves b l.
Proof.
  intros W G D. apply (rule_inv _ _ _ _ _ _ _ _ chunk_is), zom_seq_inv in D as (bx & D & ->). apply seq_cons in D as [[_ D1]|(c1 & b1 & D1 & D)].
  - destruct (header_no _ _ _ _ W D1) as (l & T & Lv). exists l. split; auto. apply (te_rule M _ _ _ _ _ _ _ _ _ chunk_m). apply (te_seq M _ c b false c' bx). apply ti_seq_stop. auto.
  - destruct (header_yes _ _ _ _ W G D1) as (h & salt & l & n & Eb & H & G1 & W1 & T1). exists [ACall kn (place (N - slen b) l n)]. split.
    + apply (te_rule M _ _ _ _ _ _ _ _ _ chunk_m). apply seq_cons in D as [[_ D]|(c2 & b2 & _ & D)]; [|apply seq_nil in D as (X & _); discriminate].
      assert (Eb1 : bx = b1) by (inversion D; subst; auto; discriminate). subst bx. apply (te_seq M _ c b false c' b1). apply (ti_seq_next M _ _ _ _ _ _ _ _ _ N [_] [] T1). apply ti_seq_stop.
      destruct (rest_calls _ _ _ _ _ D) as [(X & _)|[(X & _)|(_ & T)]]; [discriminate..|exact T].
    + right. destruct (head_begun _ _ _ _ b1 H) as (q & Q & Bg). exists l, n, q. rewrite <- Q. auto.
Qed.
Lemma chunk_yes c b c' b' : wf_text b -> get [] c cell = [] -> eats E (IR (RRule mChunk)) c b true c' b' ->
  exists f, m_found (N - slen b) b b' f /\ traces M N (IR (RRule mChunk)) c b true c' b' (acts_of f).
Proof.
  intros W G D. destruct (chunk_sound _ _ _ _ W G D) as (Ch & _). apply (rule_inv _ _ _ _ _ _ _ _ chunk_is), zom_seq_inv in D as (bx & D & <-). apply next_inv in D as (c1 & t & D1 & D). apply next_inv in D as (c2 & b2 & D2 & D). apply MxtFacts.nil_inv in D as (_ & -> & ->).
  fold rest_reader in D2. destruct (header_yes _ _ _ _ W G D1) as (h & salt & l & n & -> & H & G1 & Wt & T1). clear D1.
  assert (Top : forall a, traces M N (IR rest_reader) c1 t true c2 b2 [a] -> traces M N (IR (RRule mChunk)) c (h ++ t) true c2 b2 [ACall kn (place (N - slen (h ++ t)) l n); a]).
  { intros a T. apply (te_rule M _ _ _ _ _ _ _ _ _ chunk_m). apply (te_seq M _ c (h ++ t) true c2 b2). apply (ti_seq_next M _ _ _ _ _ _ _ _ _ N [_] [a] T1). apply (ti_seq_next M _ _ _ _ _ _ _ _ _ N [_] [] T). apply ti_seq_nil. }
  assert (Tk : tok t t = place (N - slen (h ++ t)) h []) by (unfold place; rewrite slen_app; change (slen (A := byte) []) with 0; f_equal; lia).
  assert (Em : b2 = t -> MxtFacts.ends salt t -> traces M N (IR rest_reader) c1 t true c2 b2 [ACall ke (tok t t)] ->
    exists f, m_found (N - slen (h ++ t)) (h ++ t) b2 f /\ traces M N (IR (RRule mChunk)) c (h ++ t) true c2 b2 (acts_of f)).
  { intros -> En T. exists (mkFound (place (N - slen (h ++ t)) l n) (place (N - slen (h ++ t)) h []) true). split; [eapply mf_empty; eauto|]. unfold acts_of. cbn [f_name f_content f_empty]. rewrite <- Tk. apply Top. exact T. }
  assert (Emp : MxtFacts.ends salt t -> exists f, m_found (N - slen (h ++ t)) (h ++ t) b2 f /\ traces M N (IR (RRule mChunk)) c (h ++ t) true c2 b2 (acts_of f)).
  { intros En. destruct (empty_yes c1 salt t G1 En) as (c3 & D3). assert (D5 : eats E (IR rest_reader) c1 t true c3 t) by (apply (e_any E _ c1 t true c3 t); apply i_any_hit; exact D3). apply empty_hit in D3.
    assert (T : traces M N (IR rest_reader) c1 t true c3 t [ACall ke (tok t t)]) by (apply (te_any M _ c1 t true c3 t N); apply ti_any_hit; exact D3).
    destruct (eats_det _ _ _ _ _ _ _ D2 _ _ _ D5) as (_ & -> & ->). apply Em; auto. }
  destruct t as [|x t]; [apply Emp; left; auto|]. set (q := x :: t) in *. destruct (next_cases salt q) as [(nl & v & Hn & Eq)|Nx]; [apply Emp; right; rewrite Eq; apply next_is; auto|].
  destruct (nl_cases q) as [(nl & q1 & Hn & Eq)|Nn].
  2:{ pose proof (rest_none c1 salt q G1 ltac:(discriminate) Nx Nn) as D3. destruct (eats_det _ _ _ _ _ _ _ D2 _ _ _ D3) as (Z & _). discriminate. }
  assert (W1 : wf_text q1) by (rewrite Eq in Wt; eapply wf_rest; [apply wf_nl; eauto|exact Wt]).
  destruct (content_run c1 salt q1 W1 G1) as (ct & b3 & c3 & Q & D3 & Fin & U). pose proof (empty_miss _ _ _ _ (empty_no c1 salt q G1 ltac:(discriminate) Nx)) as D4.
  assert (T : traces M N (IR rest_reader) c1 q true c3 b3 [ACall kc (tok q1 b3)]).
  { apply (te_any M _ c1 q true c3 b3 N). refine (ti_any_next M _ _ c1 q c1 q true c3 b3 N [] _ D4 _). apply ti_any_hit. apply (te_seq M _ c1 q true c3 b3 N). rewrite Eq.
    apply (seq_silent _ _ _ _ _ _ _ _ _ _ (o_nl nl q1 Hn c1) nl_silent). apply (ti_seq_next M _ _ _ _ _ _ _ _ _ N [_] [] (content_hit _ _ _ _ D3)). apply ti_seq_nil. }
  assert (D5 : eats E (IR rest_reader) c1 q true c3 b3) by (rewrite Eq in Nx |- *; eapply rest_content; eauto).
  destruct (eats_det _ _ _ _ _ _ _ D2 _ _ _ D5) as (_ & -> & ->). assert (En : MxtFacts.ends salt b3) by (destruct Fin as [Fin|[Fin _]]; [left|right]; auto).
  exists (mkFound (place (N - slen (h ++ q)) l n) (place (N - slen (h ++ q)) (h ++ nl) ct) false). unfold acts_of. cbn [f_name f_content f_empty]. split.
  - rewrite Eq, Q in *. eapply mf_content; eauto.
  - rewrite <- (tok_place (h ++ q) (h ++ nl) ct b3) by (rewrite Eq, Q, <- !app_assoc; reflexivity). rewrite <- Q. apply Top. exact T.
Qed.
(** What a last chunk that fails behind [b'] leaves. *)
Definition behind (b' : bytes) (l : list act) : Prop :=
  l = [] \/ exists nl u n t, m_newline nl /\ b' = nl ++ u ++ n ++ t /\ m_begun u n t /\ l = [ACall kn (place (N - slen b') (nl ++ u) n)].
Notation next_chunk := (RSeq [RRule mNL; RRule mChunk]).
Lemma seq_fail_stays e rs c b c' b' : eats e (IR (RSeq rs)) c b false c' b' -> b' = b.
Proof. intros D. apply zom_seq_inv in D as (b1 & _ & ->). auto. Qed.
Lemma next_no c b c' b' : wf_text b -> b = [] \/ get [] c cell = [] -> eats E (IR next_chunk) c b false c' b' -> exists l, traces M N (IR next_chunk) c b false c' b l /\ behind b l.
Proof.
  intros W G D. apply zom_seq_inv in D as (b1 & D & ->). apply seq_cons in D as [[_ D1]|(c1 & b2 & D1 & D)].
  { exists []. split; [|left; auto]. apply (te_seq M _ c b false c' b1 N []). apply stop_silent; auto. apply nl_silent. }
  destruct (nl_cases b) as [(n & q & Hn & ->)|Nn]; [|destruct (out_eats _ _ _ _ _ _ _ _ _ (o_nl_no b Nn) D1); discriminate].
  destruct (out_eats _ _ _ _ _ _ _ _ _ (o_nl n q Hn) D1) as (_ & -> & <-). assert (Gc : get [] c cell = []) by (destruct G as [G|G]; [destruct Hn as [->| ->]; discriminate|auto]).
  assert (Wq : wf_text q) by (eapply wf_rest; [apply wf_nl; eauto|exact W]).
  apply seq_cons in D as [[_ D2]|(c2 & b3 & _ & D)]; [|apply seq_nil in D as (X & _); discriminate].
  destruct (chunk_no _ _ _ _ Wq Gc D2) as (l & T & Lv). exists l. split.
  - apply (te_seq M _ c (n ++ q) false c' b1 N l). apply (seq_silent _ _ _ _ _ _ _ _ _ _ D1 nl_silent). apply ti_seq_stop. exact T.
  - destruct Lv as [->|(u & m & t & -> & Bg & ->)]; [left; auto|]. right. exists n, u, m, t. split; auto. split; auto. split; auto. f_equal. f_equal. unfold place. rewrite !slen_app. f_equal; lia.
Qed.
Definition onward (b b' : bytes) (fs : list found) : Prop := fs = [] /\ b' = b \/ exists n b1, m_newline n /\ b = n ++ b1 /\ m_list (N - slen b1) b1 b' fs.
Lemma list_more b n b1 b' f fs : m_found (N - slen b) b (n ++ b1) f -> m_newline n -> m_list (N - slen b1) b1 b' fs -> m_list (N - slen b) b b' (f :: fs).
Proof. intros F Hn Li. eapply ml_more; eauto. replace (N - slen b + slen b - slen b1) with (N - slen b1) by lia. exact Li. Qed.
Lemma list_on b b1 b' f fs : m_found (N - slen b) b b1 f -> onward b1 b' fs -> m_list (N - slen b) b b' (f :: fs).
Proof. intros F [[-> ->]|(n & b2 & Hn & -> & Li)]; [apply ml_last; auto|]. eapply list_more; eauto. Qed.
Lemma more_calls : forall k c b c' b', (length b <= k)%nat -> wf_text b -> b = [] \/ get [] c cell = [] -> eats E (IRep next_chunk) c b true c' b' ->
  exists fs l, onward b b' fs /\ behind b' l /\ traces M N (IRep next_chunk) c b true c' b' (flat_map acts_of fs ++ l).
Proof.
  assert (Rin : forall e r c b c' b', eats e (IRep r) c b true c' b' -> (eats e (IR r) c b false c' b') \/ (exists c1 b1, eats e (IR r) c b true c1 b1 /\ eats e (IRep r) c1 b1 true c' b')).
  { clear. intros e r c b c' b' D. inversion D; subst; eauto. }
  assert (Stop : forall c b c' b', wf_text b -> b = [] \/ get [] c cell = [] -> eats E (IR next_chunk) c b false c' b' -> exists fs l, onward b b' fs /\ behind b' l /\ traces M N (IRep next_chunk) c b true c' b' (flat_map acts_of fs ++ l)).
  { intros c b c' b' W G D. pose proof (seq_fail_stays _ _ _ _ _ _ D). subst b'. destruct (next_no _ _ _ _ W G D) as (l & T & Bh). exists [], l. split; [left; auto|]. split; [auto|]. apply ti_rep_stop. exact T. }
  induction k as [|k IH]; intros c b c' b' Le W G D; (destruct (Rin _ _ _ _ _ _ D) as [X|(c1 & b1 & X & X2)]; [apply Stop; auto|]);
    apply MxtFacts.seq_inv, next_inv in X as (c2 & b2 & X & Y);
    (destruct (nl_cases b) as [(n & t & Hn & ->)|Nn]; [|destruct (out_eats _ _ _ _ _ _ _ _ _ (o_nl_no b Nn) X); discriminate]).
  - exfalso. destruct Hn as [->| ->]; cbn in Le; lia.
  - assert (Wt : wf_text t) by (eapply wf_rest; [apply wf_nl; eauto|exact W]).
    assert (Gc : get [] c cell = []) by (destruct G as [G|G]; [destruct Hn as [->| ->]; discriminate|auto]).
    destruct (out_eats _ _ _ _ _ _ _ _ _ (o_nl n t Hn) X) as (_ & -> & <-). apply next_inv in Y as (c3 & b3 & Y & Z). apply MxtFacts.nil_inv in Z as (_ & -> & ->).
    destruct (chunk_sound _ _ _ _ Wt Gc Y) as (Ch & G3 & W3). destruct (chunk_yes _ _ _ _ Wt Gc Y) as (f & F & T1).
    destruct (IH c3 b3 c' b') as (fs & l & On & Bh & T2); auto.
    { apply eats_suffix in Y as [d Q]. apply (f_equal (@length _)) in Q. rewrite app_length in Q. rewrite app_length in Le. destruct Hn as [->| ->]; cbn in Le; lia. }
    exists (f :: fs), l. split; [right; exists n, t; split; auto; split; auto; eapply list_on; eauto|]. split; [auto|]. cbn [flat_map]. rewrite <- app_assoc.
    eapply ti_rep_next; [|exact T2]. apply (te_seq M _ c (n ++ t) true c3 b3 N). apply (seq_silent _ _ _ _ _ _ _ _ _ _ X nl_silent). rewrite <- (app_nil_r (acts_of f)). eapply ti_seq_next; [exact T1|apply ti_seq_nil].
Qed.
Lemma zom_cases e r c b ok c' b' : eats e (IR (RZom r)) c b ok c' b' -> ok = true /\ eats e (IRep r) c b true c' b'.
Proof. intros D. inversion D; subst; auto; discriminate. Qed.
Lemma mxt_yes c b c' b' : wf_text b -> get [] c cell = [] -> eats E (IR mxt) c b true c' b' ->
  exists fs l, m_list (N - slen b) b b' fs /\ behind b' l /\ traces M N (IR mxt) c b true c' b' (flat_map acts_of fs ++ l).
Proof.
  intros W G D. apply grammar_is_rule in D. apply (rule_inv _ _ _ _ _ _ _ _ chunks_is), MxtFacts.seq_inv, next_inv in D as (c1 & b1 & D1 & D).
  destruct (chunk_sound _ _ _ _ W G D1) as (Ch & G1 & W1). apply next_inv in D as (c2 & b2 & D2 & D). apply MxtFacts.nil_inv in D as (_ & -> & ->).
  destruct (chunk_yes _ _ _ _ W G D1) as (f & F & T1). apply zom_cases in D2 as [_ D2]. destruct (more_calls (length b1) c1 b1 c2 b2 (Nat.le_refl _) W1 G1 D2) as (fs & l & On & Bh & T2).
  exists (f :: fs), l. split; [eapply list_on; eauto|]. split; [auto|]. cbn [flat_map]. rewrite <- app_assoc. apply (te_grammar M _ _ _ _ _ _ _ _ _ _ _ chunks_m). apply (te_seq M _ c b true c2 b2 N).
  eapply ti_seq_next; [exact T1|]. rewrite <- (app_nil_r (flat_map acts_of fs ++ l)). eapply ti_seq_next; [apply te_zom; exact T2|apply ti_seq_nil].
Qed.
Lemma mxt_no c b c' b' : wf_text b -> get [] c cell = [] -> eats E (IR mxt) c b false c' b' -> exists l, traces M N (IR mxt) c b false c' b' l /\ leaves b l.
Proof.
  intros W G D. apply grammar_is_rule in D. apply (rule_inv _ _ _ _ _ _ _ _ chunks_is), zom_seq_inv in D as (bx & D & ->). apply seq_cons in D as [[_ D1]|(c1 & b1 & D1 & D)].
  - destruct (chunk_no _ _ _ _ W G D1) as (l & T & Lv). exists l. split; auto. apply (te_grammar M _ _ _ _ _ _ _ _ _ _ _ chunks_m). apply (te_seq M _ c b false c' bx N l). apply ti_seq_stop. exact T.
  - exfalso. apply seq_cons in D as [[_ D2]|(c2 & b2 & _ & D)]; [apply zom_cases in D2 as [X _]; discriminate|apply seq_nil in D as (X & _); discriminate].
Qed.
End Parts.

(* ------------------------------------------------- one list for a text *)

Lemma head_same salt l n h t salt2 l2 n2 h2 t2 : m_head salt l n h -> m_head salt2 l2 n2 h2 -> h ++ t = h2 ++ t2 -> l = l2 /\ n = n2.
Proof.
  intros H H2 Q. destruct H as [m g c ar z -> Wm Ng Gg Nn Wn [(x & r & -> & X) _] Wa Ea Sa]. destruct H2 as [m2 g2 c2 ar2 z2 -> Wm2 Ng2 Gg2 Nn2 Wn2 [(x2 & r2 & -> & X2) _] Wa2 Ea2 Sa2].
  rewrite <- !app_assoc in Q. apply app_inv_head in Q. apply word_is in Wm, Wn, Wm2, Wn2. apply gap_is in Gg, Gg2.
  assert (Fg : forall g q, g <> [] -> forallb (is 0x20) g = true -> first solidb (g ++ q) = false) by (intros [|y g0] q Z G; [congruence|]; cbn in *; unfold solidb, is in *; lia).
  assert (Fn : forall n q, n <> [] -> forallb solidb n = true -> first (is 0x20) (n ++ q) = false) by (intros [|y n0] q Z G; [congruence|]; cbn in *; unfold solidb, is in *; lia).
  apply (span_same solidb) in Q as [-> Q]; auto. apply (span_same (is 0x20)) in Q as [-> Q]; auto. apply (span_same solidb) in Q as [-> _]; auto; cbn; apply solidb_no; auto.
Qed.

Lemma found_short p b b' f : m_found p b b' f -> (length b' < length b)%nat.
Proof.
  intros H. assert (Hd : forall salt l n h, m_head salt l n h -> (0 < length h)%nat) by (intros salt l n h [m g c ar z -> Wm]; rewrite <- app_assoc; rewrite app_length; cbn; lia).
  destruct H as [h salt l n b' H En|h salt l n nl c b' H Hn En Nx U]; apply Hd in H; rewrite !app_length; lia.
Qed.
Lemma list_short p b b' fs : m_list p b b' fs -> (length b' < length b)%nat.
Proof.
  induction 1 as [p b b' f F|p b n b1 b' f fs F Hn Li IH]; [eapply found_short; eauto|]. apply found_short in F. rewrite app_length in F. lia.
Qed.
Section Unique.
Context {L : GoLib}.
Lemma found_unique p b b1 b2 f1 f2 : wf_text b -> m_found p b b1 f1 -> m_found p b b2 f2 -> b1 = b2 /\ f1 = f2.
Proof.
  intros W F1 F2. assert (E12 : b1 = b2) by (eapply chunk_det; eauto using found_chunk). subst b2. split; auto.
  assert (Hd : forall salt l n h t, b = h ++ t -> m_head salt l n h -> first (fun x => 0x20 <=? bz x) t = false -> exists c', eats mxt_env (IR (RRule mHeader)) [] b true c' t /\ get [] c' mxt_cell = salt).
  { intros salt l n h t -> H Ft. eapply header_complete; eauto. eapply head_header; eauto. }
  assert (Fe : forall salt, b1 = [] \/ m_next salt b1 -> first (fun x => 0x20 <=? bz x) b1 = false).
  { intros salt [->|X]; [reflexivity|]. apply next_first in X as (x & t & -> & X). cbn. lia. }
  inversion F1 as [h salt l n b' K En Eb|h salt l n nl c b' K Hn En Nx U Eb]; inversion F2 as [h2 salt2 l2 n2 b2 K2 En2 Eb2|h2 salt2 l2 n2 nl2 ct2 b2 K2 Hn2 En2 Nx2 U2 Eb2]; subst b'; subst b2.
  - rewrite <- Eb in Eb2. apply app_inv_tail in Eb2. subst h2. destruct (head_same _ _ _ _ [] _ _ _ _ [] K K2 eq_refl) as [-> ->]. reflexivity.
  - exfalso. destruct (Hd _ _ _ _ _ (eq_sym Eb) K (Fe _ En)) as (c1 & D1 & _). destruct (Hd _ _ _ _ _ (eq_sym Eb2) K2 (nl_first _ _ Hn2)) as (c2 & D2 & _).
    destruct (eats_det _ _ _ _ _ _ _ D1 _ _ _ D2) as (_ & _ & Q). apply (f_equal (@length _)) in Q. rewrite !app_length in Q. destruct Hn2 as [->| ->]; cbn in Q; lia.
  - exfalso. destruct (Hd _ _ _ _ _ (eq_sym Eb2) K2 (Fe _ En2)) as (c1 & D1 & _). destruct (Hd _ _ _ _ _ (eq_sym Eb) K (nl_first _ _ Hn)) as (c2 & D2 & _).
    destruct (eats_det _ _ _ _ _ _ _ D1 _ _ _ D2) as (_ & _ & Q). apply (f_equal (@length _)) in Q. rewrite !app_length in Q. destruct Hn as [->| ->]; cbn in Q; lia.
  - destruct (Hd _ _ _ _ _ (eq_sym Eb2) K2 (nl_first _ _ Hn2)) as (c1 & D1 & G1). destruct (Hd _ _ _ _ _ (eq_sym Eb) K (nl_first _ _ Hn)) as (c2 & D2 & G2).
    destruct (eats_det _ _ _ _ _ _ _ D1 _ _ _ D2) as (_ & Ec & Q). subst c2. assert (Es : salt2 = salt) by congruence. clear G1 G2. subst salt2. rewrite <- Eb, Q in Eb2. apply app_inv_tail in Eb2. subst h2.
    destruct (nl_same _ _ _ _ Hn2 Hn Q) as [-> Q2]. destruct (content_same _ _ _ _ _ Q2 En2 U2 En U) as [-> _]. destruct (head_same _ _ _ _ [] _ _ _ _ [] K K2 eq_refl) as [-> ->]. reflexivity.
Qed.
Lemma found_wf p b b' f : wf_text b -> m_found p b b' f -> wf_text b'.
Proof. intros W F. eapply chunk_wf; eauto using found_chunk. Qed.
Lemma list_unique p b b' fs : m_list p b b' fs -> forall fs2, wf_text b -> m_list p b b' fs2 -> fs = fs2.
Proof.
  induction 1 as [p b b' f F|p b n b1 b' f fs F Hn Li IH]; intros fs2 W L2; inversion L2 as [x y f2 F2|x n2 b2 y f2 fs3 F2 Hn2 Li2]; subst.
  - destruct (found_unique _ _ _ _ _ _ W F F2) as [_ ->]. reflexivity.
  - exfalso. destruct (found_unique _ _ _ _ _ _ W F F2) as [Q _]. apply list_short in Li2. rewrite Q, app_length in Li2. lia.
  - exfalso. destruct (found_unique _ _ _ _ _ _ W F F2) as [Q _]. apply list_short in Li. rewrite <- Q, app_length in Li. lia.
  - destruct (found_unique _ _ _ _ _ _ W F F2) as [Q ->]. destruct (nl_same _ _ _ _ Hn Hn2 Q) as [<- <-]. f_equal. apply IH; auto. apply found_wf in F; auto. eapply wf_rest; [apply wf_nl; eauto|exact F].
Qed.
End Unique.
