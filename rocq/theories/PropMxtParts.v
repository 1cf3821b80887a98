(** PropMxtParts.v - C158: what the functions mapped to Name, EmptyContent and Content of MXT() are told. *)
From Verif Require Import MxtFacts HearFacts PegTotal PegBytes Mxt UseFacts ExKit ReaderScan BaseFacts Utf8Facts ReadFacts PropMxt PropMxtText PropTrack MxtParts.
From Coq Require Import Lia ZifyBool.

Lemma heard_covered {L : GoLib} kn ke kc : eall covered (mxt_heard kn ke kc).
Proof. apply eall_check. vm_compute. reflexivity. Qed.
Lemma calls_app l1 l2 : calls (l1 ++ l2) = calls l1 ++ calls l2. Proof. apply flat_map_app. Qed.
Lemma calls_found kn ke kc fs : calls (flat_map (acts_of kn ke kc) fs) = flat_map (calls_of kn ke kc) fs.
Proof. induction fs as [|f fs IH]; [reflexivity|]. cbn [flat_map]. rewrite calls_app, IH. reflexivity. Qed.

(** The reading always ends, as without the functions. *)
Lemma heard_reads {L : GoLib} kn ke kc s a b : at_split s a b -> wf_text b -> (forall i, wf_text (get [] (h_cells (hp s)) i)) -> get [] (h_cells (hp s)) mxt_cell = [] ->
  exists x s', reads (mxt_heard kn ke kc) mxt s x s' /\
    ((x = None /\ exists b' fs l, m_chunks b b' /\ pos (sc s') = slen (a ++ b) - slen b' /\ m_list (pos (sc s)) b b' fs /\ behind kn (slen (a ++ b)) b' l /\
       h_events (hp s') = h_events (hp s) ++ flat_map (calls_of kn ke kc) fs ++ calls l) \/
     (x <> None /\ (forall b', ~ m_chunks b b') /\ exists l, leaves kn (slen (a ++ b)) b l /\ h_events (hp s') = h_events (hp s) ++ calls l)).
Proof.
  intros H W C G. destruct (certified_reads _ _ _ _ _ _ _ _ _ mxt_certified mxt_fine H (fun _ => conj W C) ltac:(discriminate)) as (x & s' & R).
  pose proof (stands_split _ _ _ H) as St. destruct (reads_eats mxt_env mxt _ _ _ _ _ _ mxt_covered eq_refl St R) as (c' & b' & S' & D).
  pose proof (mxt_sound _ _ _ _ _ W G D) as M. assert (P : slen (a ++ b) - slen b = pos (sc s)) by (destruct H as (_ & -> & _); rewrite slen_app; lia).
  destruct (okx x) eqn:Ox.
  - destruct (mxt_yes kn ke kc (slen (a ++ b)) _ _ _ _ W G D) as (fs & l & Li & Bh & T). rewrite P in Li.
    destruct (C103_every_trace_happens _ mxt _ _ _ _ _ _ _ H (heard_covered kn ke kc) eq_refl T) as (y & s2 & R2 & Oy & P2 & Ev). exists y, s2. split; [exact R2|]. left. split; [destruct y; [discriminate|auto]|].
    exists b', fs, l. split; auto. split; auto. split; auto. split; auto. rewrite Ev, calls_app, calls_found. reflexivity.
  - destruct (mxt_no kn ke kc (slen (a ++ b)) _ _ _ _ W G D) as (l & T & Lv).
    destruct (C103_every_trace_happens _ mxt _ _ _ _ _ _ _ H (heard_covered kn ke kc) eq_refl T) as (y & s2 & R2 & Oy & P2 & Ev). exists y, s2. split; [exact R2|]. right. split; [destruct y; [discriminate|discriminate]|].
    split; auto. exists l. auto.
Qed.
(** A call for a name with which a chunk began that could not be read. *)
Definition stray (kn : nat) (p : Z) (b : bytes) (l : list (nat * token)) : Prop :=
  l = [] \/ exists u n t, b = u ++ n ++ t /\ m_begun u n t /\ l = [(kn, place p u n)].
(** C158.  MXT() with functions mapped to Name, EmptyContent and Content (as in grammar/mxt_test.go) reads the chunks that it reads without them, and the functions are told,
    chunk by chunk and in the order of the text, the place of its name and the place of its content (of EmptyContent: the end of the header).
    If text is left behind the chunks, the name of a header that stands there may have been told, too; nothing else. *)
Theorem C158_mxt_calls {L : GoLib} kn ke kc s a b x s' : at_split s a b -> wf_text b -> (forall i, wf_text (get [] (h_cells (hp s)) i)) -> get [] (h_cells (hp s)) mxt_cell = [] ->
  reads (mxt_heard kn ke kc) mxt s x s' ->
  match x with
  | None => exists b' fs l, m_chunks b b' /\ pos (sc s') = slen (a ++ b) - slen b' /\ m_list (pos (sc s)) b b' fs /\
      h_events (hp s') = h_events (hp s) ++ flat_map (calls_of kn ke kc) fs ++ l /\
      (l = [] \/ exists nl q, m_newline nl /\ b' = nl ++ q /\ stray kn (pos (sc s') + slen nl) q l)
  | Some _ => (forall b', ~ m_chunks b b') /\ exists l, h_events (hp s') = h_events (hp s) ++ l /\ stray kn (pos (sc s)) b l
  end.
Proof.
  intros Sp W C G R. assert (P : slen (a ++ b) - slen b = pos (sc s)) by (destruct Sp as (_ & -> & _); rewrite slen_app; lia).
  destruct (heard_reads kn ke kc s a b Sp W C G) as (y & s2 & R2 & Q). destruct (reads_fun _ _ _ _ _ _ _ R R2) as [<- <-].
  destruct Q as [(-> & b' & fs & l & M & P' & Li & Bh & Ev)|(X & M & l & Lv & Ev)].
  - exists b', fs, (calls l). split; auto. split; auto. split; auto. split; auto. destruct Bh as [->|(nl & u & n & t & Hn & Eb & Bg & ->)]; [left; auto|]. right. exists nl, (u ++ n ++ t). split; auto. split; auto.
    right. exists u, n, t. split; auto. split; auto. cbn. rewrite <- P'. unfold place. rewrite slen_app. do 3 f_equal; lia.
  - destruct x as [x|]; [|congruence]. split; auto. exists (calls l). split; auto. rewrite <- P. destruct Lv as [->|(u & n & t & Eb & Bg & ->)]; [left; auto|]. right. exists u, n, t. auto.
Qed.
Print Assumptions C158_mxt_calls.
(** A text that consists of chunks: exactly the names and contents. *)
Theorem C158_whole_text {L : GoLib} kn ke kc b : wf_text b -> slen b < 2 ^ 63 -> m_chunks b [] ->
  exists fs s', m_list 0 b [] fs /\ reads (mxt_heard kn ke kc) mxt (init_st b) None s' /\ pos (sc s') = slen b /\ h_events (hp s') = flat_map (calls_of kn ke kc) fs.
Proof.
  intros W Lt M. assert (Sp : at_split (init_st b) [] b) by (repeat split; auto).
  assert (C : forall i, wf_text (get [] (h_cells (hp (init_st b))) i)) by (intros [|i]; apply wf_nil).
  destruct (heard_reads kn ke kc _ _ _ Sp W C eq_refl) as (x & s' & R & [(-> & b' & fs & l & M' & P & Li & Bh & Ev)|(_ & No & _)]); [|elim (No _ M)].
  pose proof (chunks_det _ _ _ W M M'). subst b'. exists fs, s'. split; auto. split; auto. split; [rewrite P; cbn [app]; change (slen (A := byte) []) with 0; lia|].
  rewrite Ev. destruct Bh as [->|(nl & u & n & t & Hn & Q & _)]; [cbn; rewrite app_nil_r; reflexivity|]. destruct Hn as [->| ->]; discriminate.
Qed.
Print Assumptions C158_whole_text.
(** There is one such list. *)
Theorem C158_list_unique {L : GoLib} p b b' fs fs2 : wf_text b -> m_list p b b' fs -> m_list p b b' fs2 -> fs = fs2.
Proof. intros W H H2. eapply list_unique; eauto. Qed.
Print Assumptions C158_list_unique.

(** [t] is a place of [x] in [text]. *)
Definition spells (text : bytes) (t : token) (x : bytes) : Prop := exists u v, text = u ++ x ++ v /\ t = mkTok (slen u) (slen u + slen x).
Lemma place_spells a l x t b : b = l ++ x ++ t -> spells (a ++ b) (place (slen a) l x) x.
Proof. intros ->. exists (a ++ l), t. split; [rewrite <- app_assoc; reflexivity|]. unfold place. rewrite slen_app. reflexivity. Qed.
Lemma written_list l : forall k tag a, m_word tag -> Forall writable (k :: l) ->
  exists fs, m_list (slen a) (written tag (k :: l)) [] fs /\
    Forall2 (fun f w => spells (a ++ written tag (k :: l)) (f_name f) (fst (fst w)) /\ spells (a ++ written tag (k :: l)) (f_content f) (snd w) /\ f_empty f = false) fs (k :: l).
Proof.
  assert (One : forall a tag name salt content r, m_word tag -> writable (name, salt, content) -> r = [] \/ m_next salt r ->
    let b := lit "//" ++ tag ++ lit " " ++ name ++ lit " --> " ++ salt ++ [x0a] ++ content ++ r in
    exists f, m_found (slen a) b r f /\ spells (a ++ b) (f_name f) name /\ spells (a ++ b) (f_content f) content /\ f_empty f = false).
  { intros a tag name salt content r Wt Wr En b. destruct (written_content _ _ _ _ Wr En) as [N1 N2]. destruct Wr as (Nn & Wn & Ws & _). set (u := lit "//" ++ tag ++ lit " "). set (h := u ++ name ++ lit " " ++ [] ++ lit "-->" ++ (lit " " ++ salt ++ [])).
    assert (Eb : b = h ++ [x0a] ++ content ++ r) by (unfold h, u, b; rewrite app_nil_r, <- !app_assoc; reflexivity).
    exists (mkFound (place (slen a) u name) (place (slen a) (h ++ [x0a]) content) false). cbn [f_name f_content f_empty]. split; [|split; [|split; [|auto]]].
    - rewrite Eb. apply (mf_content (slen a) h salt); auto; [|left; auto]. destruct written_note. unfold h. apply (mhd salt u name tag (lit " ") (lit " ") [] (lit " " ++ salt ++ [])); auto using written_salt; try (repeat constructor; fail); try discriminate.
    - eapply place_spells. unfold b, u. rewrite <- !app_assoc. reflexivity.
    - eapply place_spells. rewrite Eb, <- !app_assoc. reflexivity. }
  induction l as [|k2 l IH]; intros k tag a Wt F.
  - destruct k as [[name salt] content]. inversion_clear F as [|? ? K _]. destruct (One a tag name salt content [] Wt K (or_introl eq_refl)) as (f & Fo & S1 & S2 & Em). exists [f]. split; [apply ml_last; exact Fo|]. repeat constructor; auto.
  - destruct k as [[name salt] content]. inversion_clear F as [|? ? K F2]. assert (Ws : m_word salt) by apply K. set (rest := written salt (k2 :: l)) in *.
    assert (Hd : exists q, rest = lit "//" ++ salt ++ q) by (unfold rest; destruct k2 as [[n2 s2] c2]; cbn [written]; eexists; reflexivity).
    destruct (One a tag name salt content (x0a :: rest) Wt K) as (f & Fo & S1 & S2 & Em).
    { right. destruct Hd as [q ->]. exists [x0a]. split; [left; auto|]. exists q. rewrite <- !app_assoc. reflexivity. }
    set (whole := lit "//" ++ tag ++ lit " " ++ name ++ lit " --> " ++ salt ++ [x0a] ++ content ++ x0a :: rest) in *.
    change (written tag ((name, salt, content) :: k2 :: l)) with whole.
    set (pre := lit "//" ++ tag ++ lit " " ++ name ++ lit " --> " ++ salt ++ [x0a] ++ content ++ [x0a]).
    assert (Ew : whole = pre ++ rest) by (unfold whole, pre; rewrite <- !app_assoc; reflexivity).
    destruct (IH k2 salt (a ++ pre) Ws F2) as (fs & Li & Sp). fold rest in Li, Sp. exists (f :: fs). split.
    + eapply (ml_more _ _ [x0a] rest); [exact Fo|left; auto|]. replace (slen a + slen whole - slen rest) with (slen (a ++ pre)) by (rewrite Ew, !slen_app; lia). exact Li.
    + constructor; [auto|]. rewrite Ew, app_assoc. exact Sp.
Qed.
Lemma spells_get s t x : spells (full (sc s)) t x -> get_tok t s = Ok (x, s).
Proof.
  intros (u & v & Ef & ->). unfold get_tok. cbn [t_from t_to]. rewrite Ef, slice_app. pose proof (slen_nonneg u). pose proof (slen_nonneg x). pose proof (slen_nonneg v).
  replace ((0 <=? slen u) && (slen u <=? slen u + slen x) && (slen u + slen x <=? slen (u ++ x ++ v))) with true by (rewrite !slen_app; lia). reflexivity.
Qed.
(** Files written chunk by chunk (C106): Get gives the functions the names and contents as they were written. *)
Theorem C158_written_file_is_told {L : GoLib} kn ke kc tag k l : m_word tag -> Forall writable (k :: l) -> wf_text (written tag (k :: l)) -> slen (written tag (k :: l)) < 2 ^ 63 ->
  exists s', reads (mxt_heard kn ke kc) mxt (init_st (written tag (k :: l))) None s' /\
    Forall2 (fun ev w => fst ev = fst w /\ spells (written tag (k :: l)) (snd ev) (snd w) /\ get_tok (snd ev) s' = Ok (snd w, s'))
      (h_events (hp s')) (flat_map (fun '(name, _, content) => [(kn, name); (kc, content)]) (k :: l)).
Proof.
  intros Wt F W Lt. destruct (written_list l k tag [] Wt F) as (fs & Li & Sp). destruct (C158_whole_text kn ke kc _ W Lt (written_chunks l k tag Wt F)) as (fs2 & s' & Li2 & R & _ & Ev).
  change (slen (A := byte) []) with 0 in Li. pose proof (list_unique _ _ _ _ Li _ W Li2). subst fs2. exists s'. split; [exact R|]. rewrite Ev. cbn [app] in Sp.
  destruct (reads_keeps _ _ _ _ _ R) as [Fu _]. change (full (sc (init_st (written tag (k :: l))))) with (written tag (k :: l)) in Fu.
  assert (Ge : forall t x, spells (written tag (k :: l)) t x -> spells (written tag (k :: l)) t x /\ get_tok t s' = Ok (x, s')) by (intros t x X; split; [exact X|]; apply spells_get; rewrite Fu; exact X).
  clear -Sp Ge. set (text := written tag (k :: l)) in *. clearbody text. revert Sp. generalize (k :: l). intros ws Sp. induction Sp as [|f [[name salt] content] fs ws (S1 & S2 & Em) Sp IH]; [constructor|].
  cbn [flat_map]. unfold calls_of at 1. rewrite Em. cbn [app]. constructor; [split; auto|]. constructor; [split; auto|exact IH].
Qed.
Print Assumptions C158_written_file_is_told.

(** A chunk without content, one with a content of one line, and the beginning of a third. *)
Example C158_case {L : GoLib} : let b := lit "// a -->" ++ [x0a] ++ lit "//b c -->" ++ [x0a] ++ lit "xy" ++ [x0a] ++ lit "// d" in
  exists s', reads (mxt_heard 7 8 9) mxt (init_st b) None s' /\
    h_events (hp s') = [(7%nat, mkTok 3 4); (8%nat, mkTok 8 8); (7%nat, mkTok 13 14); (9%nat, mkTok 19 21); (7%nat, mkTok 25 26)] /\ pos (sc s') = 21.
Proof. eexists. split; [exists 60%nat; vm_compute; reflexivity|]. split; vm_compute; reflexivity. Qed.
Example C158_written_case {L : GoLib} : let l := [(lit "a", lit "end", lit "//x"); (lit "b", [], lit "y")] in
  Forall writable l /\ wf_text (written [] l) /\ exists s', reads (mxt_heard 0 1 2) mxt (init_st (written [] l)) None s' /\ length (h_events (hp s')) = 4%nat.
Proof.
  intros l. destruct (C106_case) as (F & W & _). split; [exact F|]. split; [exact W|]. eexists. split; [exists 60%nat; vm_compute; reflexivity|vm_compute; reflexivity].
Qed.
