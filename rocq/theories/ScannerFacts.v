(** ScannerFacts.v - exact behaviour of the Scanner calls. *)
From Verif Require Export StrFacts Scanner.

(* ----------------------------------------------------------------- states *)

Lemma at_split_in_text s : in_text s <-> exists a b, at_split s a b.
Proof.
  unfold in_text, at_split. split.
  - intros [H L]. destruct (split_at _ _ H) as (a & b & E & Hp).
    exists a, b. rewrite <- E. auto.
  - intros (a & b & E & Hp & L). rewrite E, Hp. split; [|exact L].
    rewrite slen_app. pose proof (slen_nonneg a). pose proof (slen_nonneg b). lia.
Qed.

Lemma at_split_moveto s a b c d : at_split s a b -> a ++ b = c ++ d ->
  at_split (moveto (slen c) s) c d.
Proof.
  intros (E & Hp & L) E'. unfold at_split, moveto. cbn [sc full pos].
  rewrite E, E'. split; auto. split; auto. rewrite <- E'. exact L.
Qed.

Lemma at_split_pos s a b : at_split s a b -> pos (sc s) = slen a.
Proof. intros (_ & H & _). exact H. Qed.

Lemma s_tail_split s a b : at_split s a b -> s_tail s = Ok (b, s).
Proof.
  intros (E & Hp & L). unfold s_tail. rewrite E, Hp, slen_app.
  pose proof (slen_nonneg a). pose proof (slen_nonneg b).
  replace ((0 <=? slen a) && (slen a <=? slen a + slen b)) with true by lia.
  rewrite skipn_slen. reflexivity.
Qed.

Lemma s_head_split s a b : at_split s a b -> s_head s = Ok (a, s).
Proof.
  intros (E & Hp & L). unfold s_head. rewrite E, Hp, slen_app.
  pose proof (slen_nonneg a). pose proof (slen_nonneg b).
  replace ((0 <=? slen a) && (slen a <=? slen a + slen b)) with true by lia.
  rewrite firstn_slen. reflexivity.
Qed.

(** Move, exactly *)
Lemma move_ok s d : in_text s -> - 2 ^ 63 <= d < 2 ^ 63 ->
  0 <= pos (sc s) + d <= slen (full (sc s)) -> yes_by (move d) s d.
Proof.
  intros [H L] Hd Ht. unfold yes_by, move. rewrite wrap64_id by lia.
  replace ((pos (sc s) + d <? 0) || (slen (full (sc s)) <? pos (sc s) + d)) with false by lia.
  reflexivity.
Qed.

Lemma move_no s d : in_text s -> - 2 ^ 63 <= d < 2 ^ 63 ->
  ~ (0 <= pos (sc s) + d <= slen (full (sc s))) -> no (move d) s.
Proof.
  intros [H L] Hd Ht. unfold no, move.
  destruct (Z_lt_ge_dec (pos (sc s) + d) (2 ^ 63)) as [B|B].
  - rewrite wrap64_id by lia.
    replace ((pos (sc s) + d <? 0) || (slen (full (sc s)) <? pos (sc s) + d)) with true by lia.
    reflexivity.
  - unfold wrap64.
    assert (W : (pos (sc s) + d + 2 ^ 63) mod 2 ^ 64 = pos (sc s) + d + 2 ^ 63 - 2 ^ 64)
      by (symmetry; apply Z.mod_unique with 1; lia).
    rewrite W.
    replace ((pos (sc s) + d + 2 ^ 63 - 2 ^ 64 - 2 ^ 63 <? 0) || _) with true by lia.
    reflexivity.
Qed.

Lemma in_text_split s a b : at_split s a b -> in_text s.
Proof. intros H. apply at_split_in_text. eauto. Qed.

Lemma split_bounds s a b : at_split s a b ->
  pos (sc s) = slen a /\ slen (full (sc s)) = slen a + slen b /\ slen a + slen b < 2 ^ 63
  /\ 0 <= slen a /\ 0 <= slen b.
Proof.
  intros (E & Hp & L). rewrite E, slen_app in *. pose proof (slen_nonneg a).
  pose proof (slen_nonneg b). lia.
Qed.

Lemma move_fwd s a c d : at_split s a (c ++ d) -> yes_by (move (slen c)) s (slen c).
Proof.
  intros H. pose proof (split_bounds _ _ _ H) as B. rewrite slen_app in B.
  pose proof (slen_nonneg c). pose proof (slen_nonneg d).
  apply move_ok; [eapply in_text_split; eauto|lia|lia].
Qed.

Lemma move_back s c d b : at_split s (c ++ d) b -> yes_by (move (- slen d)) s (- slen d).
Proof.
  intros H. pose proof (split_bounds _ _ _ H) as B. rewrite slen_app in B.
  pose proof (slen_nonneg c). pose proof (slen_nonneg d).
  apply move_ok; [eapply in_text_split; eauto|lia|lia].
Qed.

Lemma to_end_yes s a b : at_split s a b -> yes_by to_end s (slen b).
Proof.
  intros H. pose proof (split_bounds _ _ _ H) as B.
  unfold yes_by, to_end, to_marker.
  replace ((slen (full (sc s)) <? 0) && _) with false by lia.
  do 3 f_equal. lia.
Qed.

Lemma bind_ok {A B} (m : M A) (k : A -> M B) s a s' : m s = Ok (a, s') -> bind m k s = k a s'.
Proof. unfold bind. intros ->. reflexivity. Qed.

Ltac tail_of H := rewrite (bind_ok _ _ _ _ _ (s_tail_split _ _ _ H)).
Ltac head_of H := rewrite (bind_ok _ _ _ _ _ (s_head_split _ _ _ H)).

(* ------------------------------------------------------------ If / To (C05, C06) *)

Lemma if_str_yes s a str t : at_split s a (str ++ t) -> yes_by (if_str str) s (slen str).
Proof.
  intros H. unfold yes_by, if_str. tail_of H. rewrite has_prefix_app.
  exact (move_fwd _ _ _ _ H).
Qed.

Lemma if_str_no s a b str : at_split s a b -> (forall t, b <> str ++ t) -> no (if_str str) s.
Proof.
  intros H N. unfold no, if_str. tail_of H. rewrite (proj2 (has_prefix_false _ _) N). reflexivity.
Qed.

Lemma if_any_yes s a x xs : forall ys b, at_split s a b ->
  (forall y, In y ys -> forall t, b <> y ++ t) -> (exists t, b = x ++ t) ->
  yes_by (if_any (ys ++ x :: xs)) s (slen x).
Proof.
  induction ys as [|y ys IH]; intros b H N E.
  - destruct E as [t ->]. unfold yes_by. cbn [app if_any].
    rewrite (bind_ok _ _ _ _ _ (if_str_yes _ _ _ _ H)). reflexivity.
  - unfold yes_by. cbn [app if_any].
    rewrite (bind_ok _ _ _ _ _ (if_str_no _ _ _ y H (N y (or_introl eq_refl)))).
    apply (IH b); auto. intros z Hz. apply N. right. exact Hz.
Qed.

Lemma if_any_no s a b ys : at_split s a b ->
  (forall y, In y ys -> forall t, b <> y ++ t) -> no (if_any ys) s.
Proof.
  intros H. induction ys as [|y ys IH]; intros N; [reflexivity|].
  unfold no. cbn [if_any].
  rewrite (bind_ok _ _ _ _ _ (if_str_no _ _ _ y H (N y (or_introl eq_refl)))).
  apply IH. intros z Hz. apply N. right. exact Hz.
Qed.

Lemma rev_if_yes s h str b : at_split s (h ++ str) b -> yes_by (rev_if str) s (- slen str).
Proof.
  intros H. unfold yes_by, rev_if. head_of H.
  rewrite (proj2 (has_suffix_iff _ _)) by eauto. exact (move_back _ _ _ _ H).
Qed.

Lemma rev_if_no s a b str : at_split s a b -> (forall h, a <> h ++ str) -> no (rev_if str) s.
Proof.
  intros H N. unfold no, rev_if. head_of H. rewrite (proj2 (has_suffix_false _ _) N). reflexivity.
Qed.

Lemma rev_if_any_yes s b x xs : forall ys a, at_split s a b ->
  (forall y, In y ys -> forall h, a <> h ++ y) -> (exists h, a = h ++ x) ->
  yes_by (rev_if_any (ys ++ x :: xs)) s (- slen x).
Proof.
  induction ys as [|y ys IH]; intros a H N E.
  - destruct E as [t ->]. unfold yes_by. cbn [app rev_if_any].
    rewrite (bind_ok _ _ _ _ _ (rev_if_yes _ _ _ _ H)). reflexivity.
  - unfold yes_by. cbn [app rev_if_any].
    rewrite (bind_ok _ _ _ _ _ (rev_if_no _ _ _ y H (N y (or_introl eq_refl)))).
    apply (IH a); auto. intros z Hz. apply N. right. exact Hz.
Qed.

Lemma rev_if_any_no s a b ys : at_split s a b ->
  (forall y, In y ys -> forall h, a <> h ++ y) -> no (rev_if_any ys) s.
Proof.
  intros H. induction ys as [|y ys IH]; intros N; [reflexivity|].
  unfold no. cbn [rev_if_any].
  rewrite (bind_ok _ _ _ _ _ (rev_if_no _ _ _ y H (N y (or_introl eq_refl)))).
  apply IH. intros z Hz. apply N. right. exact Hz.
Qed.

Lemma to_str_yes s a c str d : at_split s a (c ++ str ++ d) ->
  (forall c' d', c ++ str ++ d = c' ++ str ++ d' -> slen c <= slen c') ->
  yes_by (to_str str) s (slen c).
Proof.
  intros H Hm. unfold yes_by, to_str. tail_of H.
  destruct (index (c ++ str ++ d) str) as [i|] eqn:EI.
  - apply index_some in EI as (c1 & d1 & E & <- & Hm').
    assert (slen c1 = slen c).
    { specialize (Hm c1 d1 E). specialize (Hm' c d eq_refl). lia. }
    rewrite H0. exact (move_fwd _ _ _ _ H).
  - rewrite index_none in EI. destruct (EI c d eq_refl).
Qed.

Lemma to_str_no s a b str : at_split s a b -> (forall c d, b <> c ++ str ++ d) -> no (to_str str) s.
Proof.
  intros H N. unfold no, to_str. tail_of H. rewrite (proj2 (index_none _ _) N). reflexivity.
Qed.

(* ---------------------------------------------------- forward rune operations *)

Lemma find_rune_spec p l : forall i,
  (exists l1 v c l2, l = l1 ++ (v, c) :: l2 /\ Forall (fun x => p (fst x) = false) l1 /\ p v = true
     /\ find_rune p (indexed i l) = Some (i + slen (chunk_bytes l1)))
  \/ (Forall (fun x => p (fst x) = false) l /\ find_rune p (indexed i l) = None).
Proof.
  induction l as [|[v c] l IH]; intros i.
  - right. auto.
  - cbn [indexed find_rune]. destruct (p v) eqn:E.
    + left. exists [], v, c, l. split; [reflexivity|]. split; auto. split; auto.
      cbn. f_equal. lia.
    + destruct (IH (i + slen c)) as [(l1 & v' & c' & l2 & -> & F & P & ->)|[F ->]].
      * left. exists ((v, c) :: l1), v', c', l2. split; [reflexivity|].
        split; [constructor; auto|]. split; auto.
        rewrite chunk_bytes_cons, slen_app. f_equal. lia.
      * right. split; auto.
Qed.

Lemma find_rune_some p l1 v c l2 i : Forall (fun x => p (fst x) = false) l1 -> p v = true ->
  find_rune p (indexed i (l1 ++ (v, c) :: l2)) = Some (i + slen (chunk_bytes l1)).
Proof.
  revert i. induction l1 as [|[v' c'] l1 IH]; intros i F P.
  - cbn. rewrite P. f_equal. lia.
  - inversion F as [|x y F1 F2]; subst. cbn [app indexed find_rune]. cbn in F1. rewrite F1.
    rewrite IH by auto. rewrite chunk_bytes_cons, slen_app. f_equal. lia.
Qed.

Lemma find_rune_none p l i : Forall (fun x => p (fst x) = false) l ->
  find_rune p (indexed i l) = None.
Proof.
  revert i. induction l as [|[v' c'] l IH]; intros i F; auto.
  inversion F as [|x y F1 F2]; subst. cbn [indexed find_rune]. cbn in F1. rewrite F1. auto.
Qed.

Lemma chunk_bytes_app l1 l2 : chunk_bytes (l1 ++ l2) = chunk_bytes l1 ++ chunk_bytes l2.
Proof. apply flat_map_app. Qed.

Lemma chunked_slen_zero b l : chunked b l -> slen b = 0 -> l = [].
Proof. intros H E. apply slen_zero in E. subst. apply chunked_nil_inv in H. exact H. Qed.

Lemma chunked_slen_pos b v c l : chunked b ((v, c) :: l) -> 0 < slen c /\ 0 < slen b.
Proof.
  intros H. apply chunked_cons_inv in H as (t & -> & _ & _ & N & _).
  assert (0 < slen c).
  { destruct c; [congruence|]. rewrite slen_cons. pose proof (slen_nonneg c). lia. }
  rewrite slen_app. pose proof (slen_nonneg t). lia.
Qed.

(** Moving to the end of an initial run of chunks *)
Lemma move_chunks s a b l1 l2 : at_split s a b -> chunked b (l1 ++ l2) ->
  yes_by (move (slen (chunk_bytes l1))) s (slen (chunk_bytes l1)).
Proof.
  intros H C. apply chunked_bytes in C. rewrite chunk_bytes_app in C. subst b.
  exact (move_fwd _ _ _ _ H).
Qed.

Lemma move_chunk s a b v c l : at_split s a b -> chunked b ((v, c) :: l) ->
  yes_by (move (slen c)) s (slen c).
Proof.
  intros H C. apply chunked_cons_inv in C as (t & -> & _). exact (move_fwd _ _ _ _ H).
Qed.

(** IfMatch (C09) *)
Lemma if_match_spec s a b l check : at_split s a b -> chunked b l ->
  one_rune (fun v => check v = true) (if_match check) s l.
Proof.
  intros H C. unfold one_rune, no, yes_by, if_match.
  destruct l as [|[v c] l].
  - apply chunked_nil_r in C. subst b. tail_of H. reflexivity.
  - tail_of H. rewrite (chunked_decode _ _ _ _ C).
    pose proof (chunked_slen_pos _ _ _ _ C) as [P _].
    replace (Nat.eqb (length c) 0) with false by (unfold slen in P; lia). cbn [negb andb].
    split; intros E.
    + rewrite E. exact (move_chunk _ _ _ _ _ _ H C).
    + destruct (check v); [congruence|reflexivity].
Qed.

Lemma if_between_spec s a b l mn mx : at_split s a b -> chunked b l ->
  one_rune (fun v => mn <= v <= mx) (if_between mn mx) s l.
Proof.
  intros H C. unfold one_rune, no, yes_by, if_between.
  destruct l as [|[v c] l].
  - apply chunked_nil_r in C. subst b. tail_of H. reflexivity.
  - tail_of H. rewrite (chunked_decode _ _ _ _ C).
    pose proof (chunked_slen_pos _ _ _ _ C) as [_ P].
    replace (slen b =? 0) with false by lia. unfold in_range.
    split; intros E.
    + replace ((mn <=? v) && (v <=? mx)) with true by lia. exact (move_chunk _ _ _ _ _ _ H C).
    + replace ((mn <=? v) && (v <=? mx)) with false by lia. reflexivity.
Qed.

Lemma if_rune_spec s a b l r : at_split s a b -> chunked b l -> l <> [] \/ r <> RuneError ->
  one_rune (fun v => v = r) (if_rune r) s l.
Proof.
  intros H C N. unfold one_rune, no, yes_by, if_rune.
  destruct l as [|[v c] l].
  - apply chunked_nil_r in C. subst b. tail_of H.
    replace (decode_rune []) with (RuneError, 0%nat) by reflexivity.
    destruct N as [N|N]; [congruence|].
    replace (RuneError =? r) with false by lia. reflexivity.
  - tail_of H. rewrite (chunked_decode _ _ _ _ C).
    split; intros E.
    + replace (v =? r) with true by lia. exact (move_chunk _ _ _ _ _ _ H C).
    + replace (v =? r) with false by lia. reflexivity.
Qed.

Lemma if_rune_end s a r : at_split s a [] ->
  if_rune r s = Ok (r =? RuneError, if r =? RuneError then moveto (pos (sc s)) s else s).
Proof.
  intros H. unfold if_rune. tail_of H.
  replace (decode_rune []) with (RuneError, 0%nat) by reflexivity.
  rewrite Z.eqb_sym. destruct (r =? RuneError) eqn:E; [|reflexivity].
  cbn [negb]. change (Z.of_nat 0) with (slen (@nil byte)).
  etransitivity; [apply (move_fwd s a [] []); exact H|].
  do 3 f_equal. rewrite slen_nil. lia.
Qed.

Lemma if_any_rune_loop_spec s a b v c l : at_split s a b -> chunked b ((v, c) :: l) -> forall rs,
  (In v rs -> yes_by (if_any_rune_loop rs) s (slen c)) /\
  (~ In v rs -> no (if_any_rune_loop rs) s).
Proof.
  intros H C. induction rs as [|r rs IH].
  - split; [intros []|reflexivity].
  - assert (NE : (v, c) :: l <> []) by discriminate.
    destruct (if_rune_spec s a b _ r H C (or_introl NE)) as [Y N].
    unfold yes_by, no in *. cbn [if_any_rune_loop].
    destruct (Z.eq_dec v r) as [E|E].
    + split; intros I.
      * rewrite (bind_ok _ _ _ _ _ (Y E)). reflexivity.
      * exfalso. apply I. left. auto.
    + rewrite (bind_ok _ _ _ _ _ (N E)). split; intros I.
      * apply IH. destruct I; [congruence|assumption].
      * apply IH. intros I'. apply I. right. exact I'.
Qed.

Lemma if_any_rune_spec s a b l str ls : at_split s a b -> chunked b l -> chunked str ls ->
  l <> [] \/ ~ In RuneError (map fst ls) ->
  one_rune (fun v => In v (map fst ls)) (if_any_rune str) s l.
Proof.
  intros H C Cs N. unfold one_rune, if_any_rune. rewrite (runes_chunked _ _ Cs).
  destruct l as [|[v c] l].
  - destruct N as [N|N]; [congruence|]. apply chunked_nil_r in C. subst b.
    unfold no. induction (map fst ls) as [|r rs IH]; [reflexivity|]. cbn [if_any_rune_loop].
    assert (E : if_rune r s = Ok (false, s)).
    { rewrite (if_rune_end s a r H). replace (r =? RuneError) with false; [reflexivity|].
      symmetry. apply Z.eqb_neq. intros E. apply N. left. exact E. }
    rewrite (bind_ok _ _ _ _ _ E). apply IH. intros I. apply N. right. exact I.
  - exact (if_any_rune_loop_spec s a b v c l H C (map fst ls)).
Qed.

Lemma if_any_rune_end s a str ls : at_split s a [] -> chunked str ls -> In RuneError (map fst ls) ->
  yes_by (if_any_rune str) s 0.
Proof.
  intros H Cs I. unfold yes_by, if_any_rune. rewrite (runes_chunked _ _ Cs). rewrite Z.add_0_r.
  induction (map fst ls) as [|r rs IH]; [destruct I|]. cbn [if_any_rune_loop].
  pose proof (if_rune_end s a r H) as E.
  rewrite (bind_ok _ _ _ _ _ E).
  destruct (r =? RuneError) eqn:Er; [reflexivity|].
  apply IH. destruct I as [I|I]; [lia|exact I].
Qed.

(** To* (C10) *)
Lemma to_loop_spec (P : Z -> Prop) (p : Z -> bool) s a b l (m : M bool) :
  at_split s a b -> chunked b l ->
  (forall x, In x (map fst l) -> (p x = true <-> P x)) ->
  m s = match find_rune p (indexed 0 l) with Some i => move i s | None => Ok (false, s) end ->
  to_first P m s l.
Proof.
  intros H C HP Hm. unfold to_first, yes_by, no. rewrite Hm. split.
  - intros l1 v c l2 -> F Pv. rewrite find_rune_some.
    + rewrite Z.add_0_l. exact (move_chunks _ _ _ _ _ H C).
    + rewrite Forall_forall in *. intros x Hx. specialize (F x Hx).
      destruct (p (fst x)) eqn:E; auto. exfalso. apply F. apply HP; auto.
      rewrite map_app. apply in_app_iff. left. apply in_map. exact Hx.
    + apply HP; auto. rewrite map_app. apply in_app_iff. right. left. reflexivity.
  - intros F. rewrite find_rune_none; auto.
    rewrite Forall_forall in *. intros x Hx. specialize (F x Hx).
    destruct (p (fst x)) eqn:E; auto. exfalso. apply F. apply HP; auto. apply in_map. exact Hx.
Qed.

Lemma to_match_spec s a b l check : at_split s a b -> chunked b l ->
  to_first (fun v => check v = true) (to_match check) s l.
Proof.
  intros H C. eapply (to_loop_spec _ check); eauto.
  - tauto.
  - unfold to_match. tail_of H. rewrite (range_str_chunked _ _ C).
    destruct (find_rune check (indexed 0 l)); reflexivity.
Qed.

Lemma to_rune_spec s a b l r : at_split s a b -> chunked b l ->
  to_first (fun v => v = r) (to_rune r) s l.
Proof.
  intros H C. eapply (to_loop_spec _ (fun v => v =? r)); eauto.
  - intros x _. lia.
  - unfold to_rune. tail_of H. rewrite (range_str_chunked _ _ C).
    destruct (find_rune _ (indexed 0 l)); reflexivity.
Qed.

Lemma to_between_spec s a b l mn mx : at_split s a b -> chunked b l ->
  to_first (fun v => mn <= v <= mx) (to_between mn mx) s l.
Proof.
  intros H C. eapply (to_loop_spec _ (fun v => in_range mn v mx)); eauto.
  - intros x _. unfold in_range. lia.
  - unfold to_between. tail_of H. rewrite (range_str_chunked _ _ C).
    destruct (slen b =? 0) eqn:E.
    + rewrite (chunked_slen_zero b l C) by lia. reflexivity.
    + destruct (find_rune _ (indexed 0 l)); reflexivity.
Qed.

Lemma index_any_find l str : index_any_loop l str = find_rune (contains_rune str) l.
Proof. induction l as [|[i v] l IH]; cbn; auto. rewrite IH. reflexivity. Qed.

Lemma chunked_in_scalar b l x : chunked b l -> In x (map fst l) -> is_scalar x.
Proof.
  intros C I. apply chunked_scalar in C. rewrite Forall_forall in C.
  apply in_map_iff in I as (y & <- & I). apply C. exact I.
Qed.

Lemma to_any_rune_spec s a b l str ls : at_split s a b -> chunked b l -> chunked str ls ->
  to_first (fun v => In v (map fst ls)) (to_any_rune str) s l.
Proof.
  intros H C Cs. eapply (to_loop_spec _ (contains_rune str)); eauto.
  - intros x I. apply (contains_rune_iff _ _ Cs). exact (chunked_in_scalar _ _ _ C I).
  - unfold to_any_rune, index_any. tail_of H. rewrite index_any_find, (range_str_chunked _ _ C).
    destruct (find_rune _ (indexed 0 l)); reflexivity.
Qed.

(** While* (C11): exact behaviour of the four loops *)
Lemma find_run (P : Z -> Prop) (p : Z -> bool) l l1 l2 :
  (forall x, In x (map fst l) -> (p x = true <-> P x)) -> max_run P l l1 l2 ->
  find_rune (fun v => negb (p v)) (indexed 0 l)
  = match l2 with [] => None | _ => Some (slen (chunk_bytes l1)) end.
Proof.
  intros HP (-> & F & E).
  assert (F' : Forall (fun x => negb (p (fst x)) = false) l1).
  { rewrite Forall_forall in *. intros x Hx. apply negb_false_iff. apply HP; auto.
    rewrite map_app. apply in_app_iff. left. apply in_map. exact Hx. }
  destruct l2 as [|[v c] l2].
  - rewrite app_nil_r. apply find_rune_none. exact F'.
  - destruct E as [E|(v' & c' & l3 & E & N)]; [discriminate|]. injection E as <- <- <-.
    rewrite find_rune_some; auto. apply negb_true_iff.
    destruct (p v) eqn:Ep; auto. exfalso. apply N. apply HP; auto.
    rewrite map_app. apply in_app_iff. right. left. reflexivity.
Qed.

Lemma max_run_exists (P : Z -> Prop) (D : forall x, {P x} + {~ P x}) l :
  exists l1 l2, max_run P l l1 l2.
Proof.
  induction l as [|[v c] l (l1 & l2 & E & F & N)].
  - exists [], []. repeat split; auto.
  - destruct (D v) as [Hv|Hv].
    + exists ((v, c) :: l1), l2. split; [cbn; rewrite E; reflexivity|]. split; auto.
    + exists [], ((v, c) :: l). split; auto. split; auto. right. eauto.
Qed.

Lemma max_run_empty P l1 l2 : max_run P [] l1 l2 -> l1 = [] /\ l2 = [].
Proof. intros (E & _). symmetry in E. apply app_eq_nil in E. exact E. Qed.

Lemma chunked_slen_ne b l : chunked b l -> l <> [] -> (slen b =? 0) = false.
Proof.
  intros C N. destruct l as [|[v c] l]; [congruence|].
  apply chunked_slen_pos in C. lia.
Qed.

(** Result of WhileRune/WhileBetween: yes whenever the rest is not empty. *)
Lemma while_b_spec (P : Z -> Prop) (p : Z -> bool) (m : M bool) s a b l l1 l2 :
  at_split s a b -> chunked b l ->
  (forall x, In x (map fst l) -> (p x = true <-> P x)) ->
  m s = (if slen b =? 0 then Ok (false, s)
         else match find_rune (fun v => negb (p v)) (indexed 0 l) with
              | Some i => move i s | None => to_end s end) ->
  max_run P l l1 l2 ->
  (l = [] -> no m s) /\ (l <> [] -> yes_by m s (slen (chunk_bytes l1))).
Proof.
  intros H C HP Hm R. unfold yes_by, no. rewrite Hm. split.
  - intros ->. apply chunked_nil_r in C. subst b. reflexivity.
  - intros N. rewrite (chunked_slen_ne _ _ C N). rewrite (find_run P p l l1 l2 HP R).
    destruct R as (-> & F & _).
    destruct l2 as [|x l2].
    + rewrite (to_end_yes _ _ _ H). rewrite app_nil_r in C. rewrite (chunked_bytes _ _ C). reflexivity.
    + exact (move_chunks _ _ _ _ _ H C).
Qed.

Lemma while_rune_spec s a b l r l1 l2 : at_split s a b -> chunked b l ->
  max_run (fun v => v = r) l l1 l2 ->
  (l = [] -> no (while_rune r) s) /\ (l <> [] -> yes_by (while_rune r) s (slen (chunk_bytes l1))).
Proof.
  intros H C R. eapply (while_b_spec _ (fun v => v =? r)); eauto.
  - intros x _. lia.
  - unfold while_rune. tail_of H. rewrite (range_str_chunked _ _ C).
    destruct (slen b =? 0); [reflexivity|]. destruct (find_rune _ (indexed 0 l)); reflexivity.
Qed.

Lemma while_between_spec s a b l mn mx l1 l2 : at_split s a b -> chunked b l ->
  max_run (fun v => mn <= v <= mx) l l1 l2 ->
  (l = [] -> no (while_between mn mx) s) /\
  (l <> [] -> yes_by (while_between mn mx) s (slen (chunk_bytes l1))).
Proof.
  intros H C R. eapply (while_b_spec _ (fun v => in_range mn v mx)); eauto.
  - intros x _. unfold in_range. lia.
  - unfold while_between. tail_of H. rewrite (range_str_chunked _ _ C).
    destruct (slen b =? 0); [reflexivity|]. destruct (find_rune _ (indexed 0 l)); reflexivity.
Qed.

(** WhileAnyRune/WhileMatch: exact when the run ends before the text does. *)
Lemma while_c_spec (P : Z -> Prop) (p : Z -> bool) (z : bool) (m : M bool) s a b l l1 l2 :
  at_split s a b -> chunked b l ->
  (forall x, In x (map fst l) -> (p x = true <-> P x)) ->
  m s = (if slen b =? 0 then Ok (false, s)
         else match find_rune (fun v => negb (p v)) (indexed 0 l) with
              | Some i => if i =? 0 then Ok (false, s) else move i s | None => Ok (z, s) end) ->
  max_run P l l1 l2 ->
  (l1 = [] -> no m s) /\ (l1 <> [] -> l2 <> [] -> yes_by m s (slen (chunk_bytes l1))) /\
  (l1 <> [] -> l2 = [] -> m s = Ok (z, s)).
Proof.
  intros H C HP Hm R. unfold yes_by, no. rewrite Hm.
  destruct l as [|x l].
  { apply max_run_empty in R as [-> ->]. apply chunked_nil_r in C. subst b.
    repeat split; congruence. }
  rewrite (chunked_slen_ne _ _ C) by discriminate.
  rewrite (find_run P p _ l1 l2 HP R).
  destruct R as (E & F & _). rewrite E in C.
  repeat split.
  - intros ->. destruct l2; [discriminate|reflexivity].
  - intros N1 N2. destruct l2 as [|y l2]; [congruence|].
    destruct l1 as [|[v c] l1]; [congruence|].
    replace (slen (chunk_bytes ((v, c) :: l1)) =? 0) with false.
    + exact (move_chunks _ _ _ _ _ H C).
    + cbn [app] in C. apply chunked_slen_pos in C as [C _].
      rewrite chunk_bytes_cons, slen_app. pose proof (slen_nonneg (chunk_bytes l1)). lia.
  - intros N1 ->. reflexivity.
Qed.

Lemma while_any_rune_spec s a b l str ls l1 l2 : at_split s a b -> chunked b l -> chunked str ls ->
  max_run (fun v => In v (map fst ls)) l l1 l2 ->
  (l1 = [] -> no (while_any_rune str) s) /\
  (l1 <> [] -> l2 <> [] -> yes_by (while_any_rune str) s (slen (chunk_bytes l1))) /\
  (l1 <> [] -> l2 = [] -> while_any_rune str s = Ok (true, s)).
Proof.
  intros H C Cs R. eapply (while_c_spec _ (contains_rune str) true); eauto.
  - intros x I. apply (contains_rune_iff _ _ Cs). exact (chunked_in_scalar _ _ _ C I).
  - unfold while_any_rune. tail_of H. rewrite (range_str_chunked _ _ C).
    destruct (slen b =? 0); [reflexivity|].
    destruct (find_rune _ (indexed 0 l)) as [i|]; [destruct (i =? 0)|]; reflexivity.
Qed.

Lemma while_match_spec s a b l check l1 l2 : at_split s a b -> chunked b l ->
  max_run (fun v => check v = true) l l1 l2 ->
  (l1 = [] -> no (while_match check) s) /\
  (l1 <> [] -> l2 <> [] -> yes_by (while_match check) s (slen (chunk_bytes l1))) /\
  (l1 <> [] -> l2 = [] -> no (while_match check) s).
Proof.
  intros H C R. eapply (while_c_spec _ check false); eauto.
  - tauto.
  - unfold while_match. tail_of H. rewrite (range_str_chunked _ _ C).
    destruct (slen b =? 0); [reflexivity|].
    destruct (find_rune _ (indexed 0 l)) as [i|]; [destruct (i =? 0)|]; reflexivity.
Qed.
