(** MxtBlame.v - the error of MXT(). *)
From Verif Require Export MxtFacts Blame.
From Verif Require Import PegTotal PegBytes Mxt LuaFacts LuaLex Utf8Facts ReadFacts PropMxt JsonBlame ReaderSteps ReaderLaws.
From Coq Require Import Lia ZifyBool.

(** [m_wrong b u w]: the text [b] is wrong behind [u], where [w] was expected. *)
Definition m_visible (x : byte) : Prop := 0x20 <= bz x.
Definition some_header (h : bytes) : Prop := exists salt, m_header salt h.
Inductive m_wrong : bytes -> bytes -> bytes -> Prop :=
| mw_marker b : (forall t, b <> lit "//" ++ t) -> m_wrong b [] (x22 :: lit "//" ++ [x22])
| mw_gap m t : m_word m -> ~ starts m_visible t -> m_wrong (lit "//" ++ m ++ t) (lit "//" ++ m) (lit "+' '")
| mw_name m g t : m_word m -> g <> [] -> m_gap g -> ~ starts m_visible t -> m_wrong (lit "//" ++ m ++ g ++ t) (lit "//" ++ m ++ g) (lit "+wordchar")
| mw_arrow m g n t : m_word m -> g <> [] -> m_gap g -> n <> [] -> m_word n -> ~ starts m_solid t -> ~ occurs t (lit "-->") ->
    m_wrong (lit "//" ++ m ++ g ++ n ++ t) (lit "//" ++ m ++ g ++ n) (lit "->arrow")
| mw_line h t : longest some_header h t -> t <> [] -> (forall n q, m_newline n -> t <> n ++ q) -> m_wrong (h ++ t) h (x22 :: lit "\r\n" ++ [x22]).

(* ------------------------------------------------- one header has one reading *)

Lemma not_starts_solid t : ~ starts m_solid t <-> first solidb t = false.
Proof.
  destruct t as [|x t]; [split; [reflexivity|intros _ (x & r & Q & _); discriminate]|]. cbn. rewrite solidb_no. split; intros H.
  - intros X. apply H. exists x, t. auto.
  - intros (y & r & Q & Y). injection Q as <- <-. auto.
Qed.
Lemma not_starts_visible t : ~ starts m_visible t <-> first solidb t = false /\ first (is 0x20) t = false.
Proof.
  destruct t as [|x t]; [split; [auto|intros _ (x & r & Q & _); discriminate]|]. cbn. unfold solidb, is. split.
  - intros H. assert (~ m_visible x) by (intros X; apply H; exists x, t; auto). unfold m_visible in *. lia.
  - intros H (y & r & Q & Y). injection Q as <- <-. unfold m_visible in Y. lia.
Qed.
Lemma gap_word g t : g <> [] -> m_gap g -> first solidb (g ++ t) = false.
Proof. intros N G. apply gap_is in G. destruct g as [|x g]; [congruence|]. cbn in *. unfold solidb, is in *. lia. Qed.
Lemma word_gap n t : n <> [] -> m_word n -> first (is 0x20) (n ++ t) = false.
Proof. intros N W. apply word_is in W. destruct n as [|x n]; [congruence|]. cbn in *. unfold solidb, is in *. lia. Qed.
Lemma note_word c t : m_note c -> first solidb (c ++ t) = false.
Proof. intros [(x & q & -> & X) _]. cbn. apply solidb_no. auto. Qed.
Lemma lit_in (x y : bytes) : lit "//" ++ x = lit "//" ++ y -> x = y.
Proof. intros Q. injection Q as Q. exact Q. Qed.
Lemma same_word m t m' t' : m ++ t = m' ++ t' -> m_word m -> m_word m' -> first solidb t = false -> first solidb t' = false -> m = m' /\ t = t'.
Proof. intros Q W W' F F'. apply word_is in W, W'. eapply span_same; eauto. Qed.
Lemma same_gap g t g' t' : g ++ t = g' ++ t' -> m_gap g -> m_gap g' -> first (is 0x20) t = false -> first (is 0x20) t' = false -> g = g' /\ t = t'.
Proof. intros Q W W' F F'. apply gap_is in W, W'. eapply span_same; eauto. Qed.
Lemma same_tip v t v' t' : v ++ tip ++ t = v' ++ tip ++ t' -> ~ early v -> ~ early v' -> v = v' /\ t = t'.
Proof.
  intros Q N N'. destruct (early_first v t N) as [_ F]. destruct (early_first v' t' N') as [_ F']. specialize (F _ _ Q). specialize (F' _ _ (eq_sym Q)).
  destruct (app_split_le _ _ _ _ Q F) as (m & -> & Q2). rewrite app_length in F'. destruct m; [|cbn in F'; lia]. rewrite app_nil_r. cbn [app] in Q2. apply app_inv_head in Q2. auto.
Qed.

(** The salt that is read: the rest [t] continues neither the blanks nor the word. *)
Definition greedy (z t : bytes) : Prop :=
  (z = [] /\ first (is 0x20) t = false) \/
  exists g1 w g2, z = g1 ++ w ++ g2 /\ g1 <> [] /\ m_gap g1 /\ m_word w /\ m_gap g2 /\ first (is 0x20) (w ++ g2 ++ t) = false /\ first solidb (g2 ++ t) = false /\ first (is 0x20) t = false.
Lemma visible_salt z s x : m_salt s z -> In x z -> m_visible x.
Proof.
  intros [[-> _]|(g1 & g2 & -> & _ & G1 & G2 & W)] I; [destruct I|]. unfold m_gap, m_word in *. rewrite Forall_forall in G1, G2, W. unfold m_visible.
  apply in_app_or in I as [I|I]; [rewrite (G1 _ I); vm_compute; discriminate|]. apply in_app_or in I as [I|I]; [specialize (W _ I); unfold m_solid in W; lia|]. rewrite (G2 _ I). vm_compute. discriminate.
Qed.
Lemma greedy_longest z t d t' s : greedy z t -> t = d ++ t' -> m_salt s (z ++ d) -> d = [].
Proof.
  intros G -> M. destruct d as [|x d]; [auto|]. exfalso. assert (X : m_visible x) by (eapply visible_salt; [exact M|apply in_or_app; right; left; auto]).
  assert (Nx : first (is 0x20) ((x :: d) ++ t') = false) by (destruct G as [[_ F]|(? & ? & ? & _ & _ & _ & _ & _ & _ & _ & F)]; exact F).
  assert (Bx : is 0x20 x = false) by exact Nx. assert (Sx : solidb x = true) by (unfold solidb, is, m_visible in *; lia).
  destruct M as [[Q _]|(g1' & g2' & Q & N1' & G1' & G2' & W')]; [apply app_eq_nil in Q as [_ Q]; discriminate|].
  destruct G as [[-> _]|(g1 & w & g2 & -> & N1 & G1 & W & G2 & F1 & F2 & F3)].
  - cbn [app] in Q. destruct g1' as [|y g1']; [congruence|]. injection Q as <- _. apply gap_is in G1'. cbn in G1'. rewrite Bx in G1'. discriminate.
  - destruct g2 as [|y g2]; [cbn in F2; congruence|]. assert (By : is 0x20 y = true) by (apply gap_is in G2; cbn in G2; apply andb_true_iff in G2; tauto).
    destruct w as [|v w]; [cbn in F1; congruence|]. assert (Bv : solidb v = true) by (apply word_is in W; cbn in W; apply andb_true_iff in W; tauto).
    destruct s as [|v' s].
    { cbn [app] in Q. assert (I : In x (g1' ++ g2')) by (rewrite <- Q; apply in_or_app; right; left; auto). assert (Forall (fun a => a = x20) (g1' ++ g2')) as A by (apply Forall_app; auto).
      rewrite Forall_forall in A. specialize (A _ I). subst x. discriminate. }
    assert (Bv' : solidb v' = true) by (apply word_is in W'; cbn in W'; apply andb_true_iff in W'; tauto).
    rewrite <- !app_assoc in Q. destruct (same_gap _ _ _ _ Q G1 G1') as [-> Q2]; [cbn; unfold solidb, is in *; lia|cbn; unfold solidb, is in *; lia|].
    destruct (same_word _ _ _ _ Q2 W W') as [_ Q3].
    { cbn. unfold solidb, is in *. lia. }
    { destruct g2' as [|a g2']; [reflexivity|]. apply gap_is in G2'. cbn in G2' |- *. unfold solidb, is in *. lia. }
    unfold m_gap in G2'. rewrite <- Q3 in G2'. apply Forall_app in G2' as [_ G2']. inversion_clear G2' as [|? ? Y _]. subst x. discriminate.
Qed.
(** A header, and its salt, with a rest behind them. *)
Lemma same_header m g n c ar z m' g' n' c' ar' z' t t' : m_word m -> g <> [] -> m_gap g -> n <> [] -> m_word n -> m_note c -> ~ early (c ++ ar) ->
  m_word m' -> g' <> [] -> m_gap g' -> n' <> [] -> m_word n' -> m_note c' -> ~ early (c' ++ ar') ->
  lit "//" ++ m ++ g ++ n ++ c ++ ar ++ tip ++ z ++ t = lit "//" ++ m' ++ g' ++ n' ++ c' ++ ar' ++ tip ++ z' ++ t' -> z ++ t = z' ++ t'.
Proof.
  intros Wm Ng Gg Nn Wn Nt Ea Wm' Ng' Gg' Nn' Wn' Nt' Ea' Q. apply lit_in in Q.
  destruct (same_word _ _ _ _ Q Wm Wm') as [_ Q1]; try (apply gap_word; auto; fail). destruct (same_gap _ _ _ _ Q1 Gg Gg') as [_ Q2]; try (apply word_gap; auto; fail).
  destruct (same_word _ _ _ _ Q2 Wn Wn') as [_ Q3]; try (apply note_word; auto; fail). rewrite !(app_assoc c), !(app_assoc c') in Q3. destruct (same_tip _ _ _ _ Q3 Ea Ea') as [_ Q4]. exact Q4.
Qed.
Lemma header_longest m g n c ar z t salt : m_word m -> g <> [] -> m_gap g -> n <> [] -> m_word n -> m_note c -> m_word ar -> ~ early (c ++ ar) -> m_salt salt z -> greedy z t ->
  longest some_header (lit "//" ++ m ++ g ++ n ++ c ++ ar ++ tip ++ z) t.
Proof.
  intros Wm Ng Gg Nn Wn Nt Wa Ea Sa G. split.
  { exists salt. constructor; auto. intros X. apply Ea. unfold early. rewrite <- app_assoc. exact X. }
  intros d t' -> (s & H). rewrite <- !app_assoc in H. inversion H as [m' g' n' c' ar' z' Wm' Ng' Gg' Nn' Wn' Nt' Wa' Ea' Sa' Q].
  assert (Ea2 : ~ early (c' ++ ar')) by (intros X; apply Ea'; unfold early in X; rewrite <- app_assoc in X; exact X).
  pose proof (same_header m' g' n' c' ar' z' m g n c ar z [] d Wm' Ng' Gg' Nn' Wn' Nt' Ea2 Wm Ng Gg Nn Wn Nt Ea) as K. rewrite app_nil_r in K.
  assert (Z : z' = z ++ d) by (apply K; exact (f_equal (fun v => lit "//" ++ v) Q)). subst z'. eapply greedy_longest; eauto.
Qed.

(* ------------------------------------------------- the errors of the rules *)

(** A header with the end of the line, or of the text, behind it. *)
Definition headed (b : bytes) : Prop := exists h q, b = h ++ q /\ some_header h /\ (q = [] \/ exists n v, m_newline n /\ q = n ++ v).
Section MxtBlame.
Context {L : GoLib} (t : Z).
Notation E := mxt_env.
Notation ere b w := (EReadError (t - slen b) w).
Lemma w_self r c b c' b' w : speaks r = true -> what E r = w -> eats E (IR r) c b false c' b' -> blames t E (IR r) c b [ere b' w].
Proof. intros S <- D. eapply b_self; eauto. Qed.
Lemma deep2 n v w : 0 <= n -> get_deepest [EReadError n v; EReadError n w] = EReadError n w.
Proof. intros H. unfold get_deepest. cbn [deepest_loop]. unfold err_later. rewrite (proj2 (Z.leb_le 0 n) H). rewrite Z.leb_refl. reflexivity. Qed.
Definition crlf_what : bytes := x22 :: lit "\r\n" ++ [x22].
Lemma nl_blame c b : slen b <= t -> (forall n q, m_newline n -> b <> n ++ q) -> blames t E (IR (RRule mNL)) c b [ere b crlf_what].
Proof.
  intros Hb H. eapply b_rule; [apply nl_is|]. rewrite <- (deep2 (t - slen b) (what E (RLit [x0a])) crlf_what) by lia.
  assert (N1 : out E (IR (RLit [x0a])) b false b) by (apply o_lit_no; intros q; apply H; left; auto). assert (N2 : out E (IR (RLit [x0d; x0a])) b false b) by (apply o_lit_no; intros q; apply H; right; auto).
  apply b_any. eapply bi_any; [eapply b_self; [reflexivity|apply N1]|apply N1|]. eapply bi_any; [eapply w_self; [reflexivity|vm_compute; reflexivity|apply N2]|apply N2|apply bi_any_nil].
Qed.
Lemma rest_blame c b : slen b <= t -> b <> [] -> (forall n q, m_newline n -> b <> n ++ q) -> blames t E (IR rest_reader) c b [ere b crlf_what].
Proof.
  intros Hb B H. set (salt := get [] c mxt_cell). assert (N : ~ m_next salt b) by (intros (n & Hn & q & Q); rewrite <- app_assoc in Q; exact (H _ _ Hn Q)).
  pose proof (nl_blame c b Hb H) as X. assert (Hp : 0 <= t - slen b) by lia.
  assert (En : eats E (IR RAtEnd) c b false c b) by (pose proof (e_end E c b) as Z; destruct b; [congruence|exact Z]).
  assert (Y : blames t E (IR (RRule mEmptyContent)) c b [ere b crlf_what]).
  { eapply b_rule; [apply empty_is|]. rewrite <- (deep2 (t - slen b) (what E RAtEnd) crlf_what) by auto. apply b_any. eapply bi_any; [eapply b_self; [reflexivity|exact En]|exact En|].
    eapply bi_any; [| |apply bi_any_nil].
    - apply b_at. eapply b_rule; [apply nm_is|]. apply b_seq, bi_seq_stop. exact X.
    - apply (e_at E _ c b false c b). apply (nm_no c b salt); auto. }
  unfold rest_reader. rewrite <- (deep2 (t - slen b) crlf_what crlf_what) by auto. apply b_any. eapply bi_any; [exact Y|eapply empty_no; eauto; reflexivity|].
  eapply bi_any; [apply b_seq, bi_seq_stop; exact X| |apply bi_any_nil]. apply (e_seq E _ c b false c b). apply i_seq_stop. apply o_nl_no. auto.
Qed.
Lemma salt_greedy c b : wf_text b -> exists z salt q c', b = z ++ q /\ eats E (IR (ROpt (RRule mSalt))) c b true c' q /\ m_salt salt z /\ greedy z q.
Proof.
  intros W. destruct (byte_span (is 0x20) b) as (g1 & b1 & E1 & G1 & N1).
  destruct g1 as [|x g1].
  { cbn in E1. subst b1. exists [], [], b, c. split; auto. split; [apply salt_none; auto|]. split; left; auto. }
  assert (W1 : wf_text b1) by (rewrite E1 in W; eapply wf_rest; [apply wf_gap; exact G1|exact W]).
  destruct (byte_span solidb b1) as (w & b2 & E2 & G2 & N2). destruct (byte_span (is 0x20) b2) as (g2 & b3 & E3 & G3 & N3). subst b2 b1 b.
  exists ((x :: g1) ++ w ++ g2), w, b3, (put [] c mxt_cell w). split; [rewrite <- !app_assoc; auto|]. split; [apply salt_some; auto; discriminate|].
  apply gap_is in G1, G3. apply word_is in G2. split; right.
  - exists (x :: g1), g2. split; auto. split; [discriminate|auto].
  - exists (x :: g1), w, g2. split; auto. split; [discriminate|]. auto 10.
Qed.
(** Every text is read, or wrong. *)
Theorem chunk_blame c b : slen b <= t -> wf_text b -> ((exists c' b', eats E (IR (RRule mChunk)) c b true c' b') /\ headed b) \/
  exists u r w, b = u ++ r /\ m_wrong b u w /\ blames t E (IR (RRule mChunk)) c b [ere r w].
Proof.
  intros Hb W.
  assert (Hd : forall x, blames t E (IR (RRule mHeader)) c b [x] -> blames t E (IR (RRule mChunk)) c b [x]) by (intros x B; eapply b_rule; [apply chunk_is|]; apply b_seq, bi_seq_stop; exact B).
  assert (He : forall x, blames t E (ISeq [RRule mMarker; RMany blank; RRule mName; RRule mComment; RRule mArrow; ROpt (RRule mSalt)]) c b [x] -> blames t E (IR (RRule mChunk)) c b [x])
    by (intros x B; apply Hd; eapply b_rule; [apply header_is|]; apply b_seq; exact B).
  destruct (lit_cases (lit "//") b) as [[b0 E0]|N].
  2:{ right. exists [], b, (x22 :: lit "//" ++ [x22]). split; auto. split; [constructor; auto|]. apply He, bi_seq_stop. apply (b_rule t E mMarker mxt_marker); [reflexivity|]. apply b_seq, bi_seq_stop.
      eapply w_self; [reflexivity|vm_compute; reflexivity|apply o_lit_no; auto]. }
  subst b. assert (W0 : wf_text b0) by (apply (wf_rest (lit "//")); [apply wf_ascii; repeat constructor; vm_compute; auto|exact W]).
  destruct (byte_span solidb b0) as (m & b2 & -> & G1 & N1). pose proof (o_marker m b2 W0 G1 N1 c) as D1. destruct (wf_word _ _ W0 N1) as [_ W2]. pose proof (proj1 (word_is m) G1) as Wm.
  destruct (byte_span (is 0x20) b2) as (g & b3 & -> & G2 & N2). pose proof (o_gaps g b3 G2 N2 c) as D2. pose proof (proj1 (gap_is g) G2) as Gg.
  assert (W3 : wf_text b3) by (eapply wf_rest; [apply (wf_gap g); auto|auto]).
  destruct g as [|g0 g].
  { cbn [app no_text negb] in *. right. exists (lit "//" ++ m), b3, (lit "+' '"). split; [rewrite <- app_assoc; auto|]. split; [constructor; auto; apply not_starts_visible; auto|].
    apply He. eapply bi_seq_next; [exact D1|]. apply bi_seq_stop. eapply w_self; [reflexivity|vm_compute; reflexivity|exact D2]. }
  set (gs := g0 :: g) in *. assert (Ng : gs <> []) by discriminate. cbn [no_text negb] in D2. change (negb (no_text gs)) with true in D2.
  destruct (byte_span solidb b3) as (n & b4 & -> & G3 & N3). pose proof (o_name _ n b4 W3 eq_refl G3 N3 c) as D3. destruct (wf_word _ _ W3 N3) as [_ W4]. pose proof (proj1 (word_is n) G3) as Wn.
  destruct n as [|n0 n].
  { cbn [app no_text negb] in *. right. exists (lit "//" ++ m ++ gs), b4, (lit "+wordchar"). split; [rewrite <- !app_assoc; auto|]. split; [constructor; auto; apply not_starts_visible; auto|].
    apply He. eapply bi_seq_next; [exact D1|]. eapply bi_seq_next; [exact D2|]. apply bi_seq_stop. apply (b_rule t E mName mxt_name); [reflexivity|]. apply (b_rule t E mWord mxt_word); [reflexivity|].
    eapply w_self; [reflexivity|vm_compute; reflexivity|]. apply (rule_inv E mWord mxt_word); [reflexivity|]. apply (rule_inv E mName mxt_name); [reflexivity|]. exact D3. }
  set (ns := n0 :: n) in *. assert (Nn : ns <> []) by discriminate. change (negb (no_text ns)) with true in D3.
  destruct (first_cases tip b4) as [(v & b5 & -> & F)|N]; [discriminate| |].
  2:{ right. exists (lit "//" ++ m ++ gs ++ ns), b4, (lit "->arrow"). split; [rewrite <- !app_assoc; auto|]. split; [constructor; auto; apply not_starts_solid; auto|].
      apply He. eapply bi_seq_next; [exact D1|]. eapply bi_seq_next; [exact D2|]. eapply bi_seq_next; [exact D3|]. apply bi_seq_stop. apply (b_rule t E mComment mxt_comment); [reflexivity|].
      eapply w_self; [reflexivity|vm_compute; reflexivity|]. apply (rule_inv E mComment mxt_comment); [reflexivity|]. apply o_comment_none; auto. }
  apply first_early in F. destruct (last_word v) as (nt & ar & -> & Cl & Wd). rewrite <- app_assoc in *. destruct (wf_note _ _ _ Cl W4) as (Wt & Wa & W5).
  pose proof (o_comment nt ar b5 Wt Wa Cl Wd F c) as D4. assert (Fa : ~ early ar) by (intros X; apply F, early_more; auto).
  assert (D5 : out E (IR (RRule mArrow)) (ar ++ tip ++ b5) true b5).
  { apply (o_rule E mArrow mxt_arrow); [reflexivity|]. pose proof (o_arrow ar b5 Wa Fa) as O. rewrite (proj2 (word_is ar) Wd) in O. exact O. }
  destruct (salt_greedy c b5 W5) as (z & salt & q & c' & -> & D6 & Sa & Gr).
  assert (Nt : m_note nt).
  { destruct nt as [|x nt].
    - exfalso. cbn [app] in N3. destruct ar as [|y ar]; [vm_compute in N3; discriminate|]. inversion Wd; subst. apply solidb_is in H1. cbn in N3. congruence.
    - split; [exists x, nt; split; [auto|]; apply solidb_no; exact N3|]. destruct Cl as [Cl|Cl]; [discriminate|exact Cl]. }
  assert (D : eats E (IR (RRule mHeader)) c (lit "//" ++ m ++ gs ++ ns ++ nt ++ ar ++ tip ++ z ++ q) true c' q).
  { apply (e_rule E _ _ c _ true _ _ header_is). apply (e_seq E _ c _ true c' q).
    eapply i_seq_next; [exact D1|]. eapply i_seq_next; [exact D2|]. eapply i_seq_next; [exact D3|]. eapply i_seq_next; [exact D4|]. eapply i_seq_next; [apply D5|]. eapply i_seq_next; [exact D6|]. apply i_seq_nil. }
  set (h := lit "//" ++ m ++ gs ++ ns ++ nt ++ ar ++ tip ++ z).
  assert (Eh : lit "//" ++ m ++ gs ++ ns ++ nt ++ ar ++ tip ++ z ++ q = h ++ q) by (unfold h; rewrite <- !app_assoc; reflexivity).
  pose proof (header_longest m gs ns nt ar z q salt Wm Ng Gg Nn Wn Nt Wd F Sa Gr) as Lo. fold h in Lo. rewrite Eh in *.
  assert (Wq : wf_text q).
  { destruct (salt_sound c (z ++ q) c' q W5 D6) as (z2 & s2 & Q & Wq & _). exact Wq. }
  assert (Fin : forall c2 b2, eats E (IR rest_reader) c' q true c2 b2 -> exists c3 b3, eats E (IR (RRule mChunk)) c (h ++ q) true c3 b3).
  { intros c2 b2 D7. exists c2, b2. apply (e_rule E _ _ c _ true _ _ chunk_is). apply (e_seq E _ c _ true c2 b2). eapply i_seq_next; [exact D|]. eapply i_seq_next; [exact D7|]. apply i_seq_nil. }
  set (sl := get [] c' mxt_cell). destruct q as [|q0 q]; [left; split; [eapply Fin; apply rest_end|exists h, []; split; [auto|]; split; [apply Lo|auto] ]|]. set (qs := q0 :: q) in *.
  destruct (next_cases sl qs) as [(nl & v & Hn & Eq)|Nx].
  { left. split; [|exists h, qs; split; [auto|]; split; [apply Lo|right; exists nl, (lit "//" ++ sl ++ v); auto] ].
    destruct (rest_next c' sl qs eq_refl) as (c3 & D7 & _); [rewrite Eq; apply next_is; auto|]. eapply Fin; eauto. }
  destruct (nl_cases qs) as [(nl & q1 & Hn & Eq)|M].
  { left. split; [|exists h, qs; split; [auto|]; split; [apply Lo|right; exists nl, q1; auto] ]. assert (W1 : wf_text q1) by (rewrite Eq in Wq; eapply wf_rest; [apply wf_nl; eauto|exact Wq]). destruct (content_run c' sl q1 W1 eq_refl) as (ct & b6 & c3 & _ & D7 & _).
    rewrite Eq in *. eapply Fin, rest_content; eauto; reflexivity. }
  right. exists h, qs, crlf_what. split; auto. split; [apply mw_line; auto; discriminate|]. eapply b_rule; [apply chunk_is|]. apply b_seq. eapply bi_seq_next; [exact D|]. apply bi_seq_stop. fold rest_reader.
  apply rest_blame; auto; [|discriminate]. rewrite slen_split in Hb. pose proof (slen_pos h). lia.
Qed.
End MxtBlame.

(** A sequence of a reader and a Zom fails with the error of the first. *)
Lemma zom_no_blame {L : GoLib} t e k c b x : ~ blames t e (ISeq [RZom k]) c b [x].
Proof.
  intros B. inversion B; subst.
  - match goal with X : blames _ _ (IR (RZom _)) _ _ _ |- _ => inversion X; subst; discriminate end.
  - match goal with X : blames _ _ (ISeq []) _ _ _ |- _ => inversion X end.
Qed.
Lemma first_blame {L : GoLib} t e i r k c b x : r_reader (get_rule e i) = Some (RSeq [r; RZom k]) -> blames t e (IR (RRule i)) c b [x] -> blames t e (IR r) c b [x].
Proof.
  intros G B. inversion B; subst; try discriminate. match goal with X : r_reader _ = Some ?q, Y : blames _ _ (IR ?q) _ _ _ |- _ => rewrite G in X; injection X as <-; inversion Y; subst; try discriminate end.
  match goal with X : blames _ _ (ISeq _) _ _ _ |- _ => inversion X; subst end; auto. exfalso. eapply zom_no_blame; eauto.
Qed.
(** MXT() itself. *)
Theorem mxt_blame {L : GoLib} te c b s x s' : stands te c b s -> wf_text b -> reads mxt_env mxt s (Some x) s' ->
  exists u w, m_wrong b u w /\ x = EOther (lit "mxt parse error: " ++ err_text (EReadError (pos (sc s) + slen u) w)).
Proof.
  intros St W R. assert (Cv : eall covered mxt_env) by (apply eall_check; vm_compute; reflexivity).
  pose proof (stands_pos _ _ _ _ St) as Po. assert (Hb : slen b <= slen te) by (pose proof (stands_nonneg _ _ _ _ St); lia).
  pose proof (reads_blames mxt_env mxt te c b s x s' Cv eq_refl St R) as B. destruct (grammar_blame _ _ _ _ _ _ _ _ B) as (y & -> & By).
  apply (first_blame _ mxt_env mChunks (RRule mChunk) (RSeq [RRule mNL; RRule mChunk]) _ _ _ chunks_is) in By.
  destruct (chunk_blame (slen te) c b Hb W) as [[(c1 & b1 & D) _]|(u & r & w & -> & Wr & Bw)].
  - elim (blames_not mxt_env _ _ _ _ _ _ _ By D).
  - exists u, w. split; auto. pose proof (blames_det mxt_env _ _ _ _ _ By _ Bw) as Y. injection Y as ->. rewrite !slen_split in Po. do 4 f_equal. lia.
Qed.
(** Where a wrong text stops. *)
Lemma header_view h : some_header h -> exists m g n c z, m_word m /\ g <> [] /\ m_gap g /\ n <> [] /\ m_word n /\ m_note c /\ h = lit "//" ++ m ++ g ++ n ++ c ++ z /\ occurs z tip.
Proof.
  intros (s & H). inversion H as [m g n c ar z Wm Ng Gg Nn Wn Nt Wa Ea Sa]; subst. exists m, g, n, c, (ar ++ tip ++ z). repeat (split; [assumption|]). split; auto. exists ar, z. auto.
Qed.
Lemma wrong_view b u w : m_wrong b u w ->
    ((forall t, b <> lit "//" ++ t) /\ u = [] /\ w = x22 :: lit "//" ++ [x22]) \/
    (exists m t, b = lit "//" ++ m ++ t /\ m_word m /\ first solidb t = false /\
      ((first (is 0x20) t = false /\ u = lit "//" ++ m /\ w = lit "+' '") \/
       (exists g q, t = g ++ q /\ g <> [] /\ m_gap g /\ first (is 0x20) q = false /\
         ((first solidb q = false /\ u = lit "//" ++ m ++ g /\ w = lit "+wordchar") \/
          (exists n v, q = n ++ v /\ n <> [] /\ m_word n /\ first solidb v = false /\
            ((~ occurs v tip /\ u = lit "//" ++ m ++ g ++ n /\ w = lit "->arrow") \/
             (occurs v tip /\ w = crlf_what /\ exists r, b = u ++ r /\ longest some_header u r /\ r <> [] /\ forall n q, m_newline n -> r <> n ++ q))))))).
Proof.
  intros H. destruct H as [b N|m t Wm N|m g t Wm Ng Gg N|m g n t Wm Ng Gg Nn Wn N Oc|h t Lo T M].
    - left. auto.
    - right. apply not_starts_visible in N as [N1 N2]. exists m, t. auto 10.
    - right. apply not_starts_visible in N as [N1 N2]. exists m, (g ++ t). split; auto. split; auto. split; [apply gap_word; auto|]. right. exists g, t. auto 12.
    - right. apply not_starts_solid in N. exists m, (g ++ n ++ t). split; auto. split; auto. split; [apply gap_word; auto|]. right. exists g, (n ++ t). do 3 (split; auto). split; [apply word_gap; auto|]. right.
      exists n, t. auto 10.
    - right. destruct (header_view h (proj1 Lo)) as (m & g & n & c & z & Wm & Ng & Gg & Nn & Wn & Nt & Q & (a & d & Oc)). exists m, (g ++ n ++ c ++ z ++ t). split; [rewrite Q, <- !app_assoc; auto|]. split; auto. split; [apply gap_word; auto|].
      right. exists g, (n ++ c ++ z ++ t). do 3 (split; auto). split; [apply word_gap; auto|]. right. exists n, (c ++ z ++ t). do 3 (split; auto). split; [apply note_word; auto|]. right. split.
      + exists (c ++ a), (d ++ t). rewrite Oc, <- !app_assoc. reflexivity.
      + split; auto. exists t. auto.
Qed.
(** A wrong text is no text. *)
Lemma m_wrong_unique b u w u' w' : m_wrong b u w -> m_wrong b u' w' -> u = u' /\ w = w'.
Proof.
  intros H H'. apply wrong_view in H, H'.
  destruct H as [(N & -> & ->)|(m & t & E & Wm & F1 & H)]; destruct H' as [(N' & -> & ->)|(m' & t' & E' & Wm' & F1' & H')]; [auto|elim (N _ E')|elim (N' _ E)|].
  assert (Q : m ++ t = m' ++ t') by (apply lit_in; congruence). destruct (same_word _ _ _ _ Q Wm Wm' F1 F1') as [<- <-]. clear Q.
  destruct H as [(F2 & -> & ->)|(g & q & Et & Ng & Gg & F2 & H)]; destruct H' as [(F2' & -> & ->)|(g' & q' & Et' & Ng' & Gg' & F2' & H')]; auto.
  { exfalso. subst t. apply gap_is in Gg'. destruct g' as [|x g']; [congruence|]. cbn in *. unfold is in *. lia. }
  { exfalso. subst t. apply gap_is in Gg. destruct g as [|x g]; [congruence|]. cbn in *. unfold is in *. lia. }
  assert (Q : g ++ q = g' ++ q') by congruence. destruct (same_gap _ _ _ _ Q Gg Gg' F2 F2') as [<- <-]. clear Q.
  destruct H as [(F3 & -> & ->)|(n & v & Eq & Nn & Wn & F3 & H)]; destruct H' as [(F3' & -> & ->)|(n' & v' & Eq' & Nn' & Wn' & F3' & H')]; auto.
  { exfalso. subst q. apply word_is in Wn'. destruct n' as [|x n']; [congruence|]. cbn in *. apply andb_true_iff in Wn'. destruct Wn'. congruence. }
  { exfalso. subst q. apply word_is in Wn. destruct n as [|x n]; [congruence|]. cbn in *. apply andb_true_iff in Wn. destruct Wn. congruence. }
  assert (Q : n ++ v = n' ++ v') by congruence. destruct (same_word _ _ _ _ Q Wn Wn' F3 F3') as [<- <-]. clear Q.
  destruct H as [(O & -> & ->)|(O & -> & r & Er & Lo & _)]; destruct H' as [(O' & -> & ->)|(O' & -> & r' & Er' & Lo' & _)]; auto; try tauto.
  split; auto. assert (Q : u ++ r = u' ++ r') by congruence. clear -Q Lo Lo'.
  destruct (Nat.le_gt_cases (length u) (length u')) as [Le|Gt].
  - destruct (app_split_le _ _ _ _ Q Le) as (d & -> & ->). rewrite (proj2 Lo d r' eq_refl (proj1 Lo')), app_nil_r. auto.
  - destruct (app_split_le _ _ _ _ (eq_sym Q) (Nat.lt_le_incl _ _ Gt)) as (d & -> & ->). rewrite (proj2 Lo' d r eq_refl (proj1 Lo)), app_nil_r. auto.
Qed.
Lemma header_ext h x d : some_header h -> some_header (h ++ x :: d) -> m_visible x.
Proof.
  intros (s & H) (s' & H'). inversion H as [m g k c ar z Wm Ng Gg Nn Wn Nt Wa Ea Sa]; subst. rewrite <- !app_assoc in H'. inversion H' as [m' g' k' c' ar' z' Wm' Ng' Gg' Nn' Wn' Nt' Wa' Ea' Sa' Q].
  assert (Ea1 : ~ early (c ++ ar)) by (intros X; apply Ea; unfold early in X; rewrite <- app_assoc in X; exact X).
  assert (Ea2 : ~ early (c' ++ ar')) by (intros X; apply Ea'; unfold early in X; rewrite <- app_assoc in X; exact X).
  pose proof (same_header m' g' k' c' ar' z' m g k c ar z [] (x :: d) Wm' Ng' Gg' Nn' Wn' Nt' Ea2 Wm Ng Gg Nn Wn Nt Ea1) as K. rewrite app_nil_r in K.
  assert (Z : z' = z ++ x :: d) by (apply K; exact (f_equal (fun v => lit "//" ++ v) Q)). subst z'. eapply visible_salt; [exact Sa'|apply in_or_app; right; left; reflexivity].
Qed.
Lemma wrong_not_headed b u w : m_wrong b u w -> ~ headed b.
Proof.
  intros H (h & q & -> & Hh & Hq). apply wrong_view in H. destruct (header_view h Hh) as (m' & g' & n' & c' & z' & Wm' & Ng' & Gg' & Nn' & Wn' & Nt' & Q & Oc').
  destruct H as [(N & _)|(m & t & E & Wm & F1 & H)]; [rewrite Q, <- app_assoc in N; eapply N; reflexivity|].
  pose proof E as E'. rewrite Q, <- !app_assoc in E'. apply lit_in in E'. destruct (same_word _ _ _ _ E' Wm' Wm) as [-> E1]; [apply gap_word; auto|auto|].
  destruct H as [(F2 & _)|(g & q2 & Et & Ng & Gg & F2 & H)].
  { rewrite <- E1 in F2. apply gap_is in Gg'. destruct g' as [|x g']; [congruence|]. cbn in *. unfold is in *. lia. }
  rewrite Et in E1. destruct (same_gap _ _ _ _ E1 Gg' Gg) as [-> E2]; [apply word_gap; auto|auto|].
  destruct H as [(F3 & _)|(n & v & Eq & Nn & Wn & F3 & H)].
  { rewrite <- E2 in F3. apply word_is in Wn'. destruct n' as [|x n']; [congruence|]. cbn in *. apply andb_true_iff in Wn'. destruct Wn'. congruence. }
  rewrite Eq in E2. destruct (same_word _ _ _ _ E2 Wn' Wn) as [-> E3]; [apply note_word; auto|auto|].
  destruct H as [(O & _)|(_ & _ & r & Er & Lo & Rn & Nl)].
  { apply O. rewrite <- E3. destruct Oc' as (a & d & ->). exists (c' ++ a), (d ++ q). rewrite <- !app_assoc. reflexivity. }
  destruct (Nat.le_gt_cases (length u) (length h)) as [Le|Gt].
  - destruct (app_split_le _ _ _ _ (eq_sym Er) Le) as (d & -> & Er2). rewrite (proj2 Lo d q Er2 Hh) in Er2. cbn in Er2. subst r. destruct Hq as [->|(k & v0 & Hk & ->)]; [congruence|]. exact (Nl _ _ Hk eq_refl).
  - destruct (app_split_le _ _ _ _ Er (Nat.lt_le_incl _ _ Gt)) as (d & -> & Er2). destruct d as [|x d]; [rewrite app_nil_r in Gt; lia|].
    destruct Hq as [->|(k & v0 & Hk & ->)]; [discriminate|]. pose proof (header_ext h x d Hh (proj1 Lo)) as V. unfold m_visible in V.
    destruct Hk as [->| ->]; injection Er2 as <- _; vm_compute in V; congruence.
Qed.
Theorem mxt_wrong {L : GoLib} te c b s y s' u w : stands te c b s -> wf_text b -> m_wrong b u w -> reads mxt_env mxt s y s' ->
  y = Some (EOther (lit "mxt parse error: " ++ err_text (EReadError (pos (sc s) + slen u) w))).
Proof.
  intros St W Wr R. destruct y as [x|].
  - destruct (mxt_blame te c b s x s' St W R) as (u' & w' & Wr' & ->). destruct (m_wrong_unique _ _ _ _ _ Wr Wr') as [-> ->]. reflexivity.
  - exfalso. assert (Cv : eall covered mxt_env) by (apply eall_check; vm_compute; reflexivity). assert (Hb : slen b <= slen te) by (pose proof (stands_nonneg _ _ _ _ St); pose proof (stands_pos _ _ _ _ St); lia).
    destruct (reads_eats mxt_env mxt te c b s None s' Cv eq_refl St R) as (c' & b' & _ & D). cbn [okx] in D.
    destruct (chunk_blame (slen te) c b Hb W) as [[_ Hd]|(u' & r & w' & -> & _ & B)]; [exact (wrong_not_headed _ _ _ Wr Hd)|].
    apply grammar_is_rule in D. apply (rule_inv _ _ _ _ _ _ _ _ chunks_is), seq_inv, next_inv in D as (c1 & b1 & D1 & _). exact (blames_not mxt_env _ _ _ _ _ _ _ B D1).
Qed.
(** What stands before the place can be continued. *)
Lemma line_alone h salt : m_header salt h -> m_chunks h [].
Proof.
  intros H. exists []. split; [rewrite <- (app_nil_r h); eapply mc_empty; eauto|]. apply mm_stop. intros n b1 b' [->| ->]; discriminate.
Qed.
Lemma plain_header m g n c : m_word m -> g <> [] -> m_gap g -> n <> [] -> m_word n -> c = lit " " -> m_header [] (lit "//" ++ m ++ g ++ n ++ c ++ lit "-->").
Proof.
  intros Wm Ng Gg Nn Wn ->. pose proof (mh [] m g n (lit " ") [] [] Wm Ng Gg Nn Wn) as K. cbn [app] in K. apply K; clear K.
  - split; [exists x20, []|exists [], x20]; (split; [reflexivity|]); unfold m_solid; vm_compute; congruence.
  - constructor.
  - intros (a & q & Q). destruct a as [|a0 [|a1 [|a2 a]]]; try discriminate; injection Q as Q; try discriminate. destruct a; discriminate.
  - left. auto.
Qed.
Lemma longest_wf h t : wf_text (h ++ t) -> longest some_header h t -> wf_text h.
Proof.
  intros W Lo. destruct t as [|x t]; [rewrite app_nil_r in W; auto|]. destruct (Z_lt_ge_dec (bz x) 128) as [X|X]; [eapply wf_cut; eauto|].
  assert (En : forall q y, h = q ++ [y] -> bz y < 128 -> wf_text h).
  { intros q y -> Y. assert (Wt : wf_text (x :: t)) by (eapply wf_behind with (v := q) (x := y); [rewrite <- app_assoc in W; exact W|auto]). eapply wf_begin; [exact Wt|exact W]. }
  destruct Lo as [(s & H) Mx]. inversion H as [m g n c ar z Wm Ng Gg Nn Wn Nt Wa Ea Sa Eh]. rewrite Eh. destruct Sa as [[-> ->]|(g1 & g2 & -> & N1 & G1 & G2 & Ws)].
  - apply (En (lit "//" ++ m ++ g ++ n ++ c ++ ar ++ lit "--") x3e); [rewrite <- Eh, <- !app_assoc; reflexivity|vm_compute; reflexivity].
  - destruct g2 as [|y g2 _] using rev_ind.
    + exfalso. assert (Q : [x] = []); [|discriminate]. apply (Mx [x] t eq_refl). exists (s ++ [x]).
      replace (h ++ [x]) with (lit "//" ++ m ++ g ++ n ++ c ++ ar ++ lit "-->" ++ g1 ++ s ++ [x]) by (rewrite <- Eh, app_nil_r, <- !app_assoc; reflexivity).
      constructor; auto. right. exists g1, []. rewrite app_nil_r. split; auto. split; auto. split; auto. split; auto. apply Forall_app. split; auto. constructor; auto. unfold m_solid. lia.
    + apply Forall_app in G2 as [_ G2]. inversion_clear G2 as [|? ? Y _]. subst y. apply (En (lit "//" ++ m ++ g ++ n ++ c ++ ar ++ lit "-->" ++ g1 ++ s ++ g2) x20); [rewrite <- Eh, <- !app_assoc; reflexivity|vm_compute; reflexivity].
Qed.
Lemma wrong_continues b u w : wf_text b -> m_wrong b u w -> exists v, wf_text (u ++ v) /\ m_chunks (u ++ v) [].
Proof.
  assert (Wo : forall x, Forall (fun y => bz y < 128) x -> wf_text x) by (intros; apply wf_ascii; auto).
  assert (Ws : wf_text (lit "//")) by (apply Wo; repeat constructor; vm_compute; auto).
  assert (Go : forall u v salt, wf_text u -> wf_text v -> m_header salt (u ++ v) -> exists v, wf_text (u ++ v) /\ m_chunks (u ++ v) []).
  { intros u0 v0 s Wu Wv H. exists v0. split; [apply wf_app; auto|eapply line_alone; eauto]. }
  intros W H. destruct H as [b N|m t Wm N|m g t Wm Ng Gg N|m g n t Wm Ng Gg Nn Wn N Oc|h t Lo T M].
  - apply (Go [] (lit "// a -->") []); [apply wf_nil|apply Wo; repeat constructor; vm_compute; auto|]. apply (plain_header [] (lit " ") (lit "a") (lit " ")); try discriminate; auto; repeat constructor; vm_compute; congruence.
  - apply not_starts_visible in N as [N _]. apply (wf_rest _ _ Ws) in W as W0. destruct (wf_word _ _ W0 N) as [W1 _].
    apply (Go _ (lit " a -->") []); [apply wf_app; auto|apply Wo; repeat constructor; vm_compute; auto|]. rewrite <- app_assoc. apply (plain_header m (lit " ") (lit "a") (lit " ")); try discriminate; auto; repeat constructor; vm_compute; congruence.
  - apply (wf_rest _ _ Ws) in W as W0. destruct (wf_word m (g ++ t) W0) as [W1 _]; [apply gap_word; auto|].
    apply (Go _ (lit "a -->") []); [apply wf_app; auto; apply wf_app; auto; apply wf_gap, gap_is; auto|apply Wo; repeat constructor; vm_compute; auto|].
    rewrite <- !app_assoc. apply (plain_header m g (lit "a") (lit " ")); try discriminate; auto; repeat constructor; vm_compute; congruence.
  - apply not_starts_solid in N. apply (wf_rest _ _ Ws) in W as W0. destruct (wf_word m (g ++ n ++ t) W0) as [W1 W2]; [apply gap_word; auto|].
    apply wf_rest in W2; [|apply wf_gap, gap_is; auto]. destruct (wf_word _ _ W2 N) as [W3 _].
    apply (Go _ (lit " -->") []); [repeat apply wf_app; auto; apply wf_gap, gap_is; auto|apply Wo; repeat constructor; vm_compute; auto|].
    rewrite <- !app_assoc. apply (plain_header m g n (lit " ")); auto.
  - destruct (proj1 Lo) as (salt & H). apply (Go h [] salt); [|apply wf_nil|rewrite app_nil_r; auto].
    eapply longest_wf; eauto.
Qed.
