(** Shift.v - the same text standing behind two different beginnings: forward Scanner methods and
    readers do the same from there on. *)
From Verif Require Export ReaderTrans LogModel.
From Coq Require Import Lia ZifyBool.

(* ------------------------------------------------------- where runes start *)

Lemma range_from_ge s : forall k i, Forall (fun p => i <= fst p) (range_from s k i).
Proof.
  induction s as [|b s IH]; intros k i; [destruct k; constructor|].
  assert (W : forall k, Forall (fun p => i <= fst p) (range_from s k (i + 1))).
  { intros k'. eapply Forall_impl; [|apply IH]. cbn. intros. lia. }
  cbn [range_from]. destruct k; [|apply W]. destruct (decode_rune _) as [v n]. constructor; [cbn; lia|apply W].
Qed.
Lemma range_ge s : Forall (fun p => 0 <= fst p) (range_str s).
Proof. apply range_from_ge. Qed.
Lemma range_from_lt s : forall k i, Forall (fun p => fst p < i + slen s) (range_from s k i).
Proof.
  induction s as [|b s IH]; intros k i; [destruct k; constructor|].
  assert (W : forall k, Forall (fun p => fst p < i + slen (b :: s)) (range_from s k (i + 1))).
  { intros k'. eapply Forall_impl; [|apply IH]. cbn beta. intros. rewrite slen_cons. lia. }
  cbn [range_from]. destruct k; [|apply W]. destruct (decode_rune _) as [v n]. constructor; [cbn [fst]; rewrite slen_cons; pose proof (slen_nonneg s); lia|apply W].
Qed.
Lemma range_lt s : Forall (fun p => fst p < slen s) (range_str s).
Proof. apply (range_from_lt s 0 0). Qed.
Lemma find_rune_in p l i : find_rune p l = Some i -> exists v, In (i, v) l.
Proof.
  induction l as [|[j v] l IH]; [discriminate|]. cbn [find_rune]. destruct (p v).
  - intros H. injection H as <-. exists v. left. reflexivity.
  - intros H. destruct (IH H) as [w W]. exists w. right. exact W.
Qed.
Lemma find_rune_bounds p s i : find_rune p (range_str s) = Some i -> 0 <= i < slen s.
Proof.
  intros H. destruct (find_rune_in _ _ _ H) as [v V]. pose proof (range_ge s) as G. pose proof (range_lt s) as T.
  rewrite Forall_forall in G, T. split; [apply (G _ V)|apply (T _ V)].
Qed.

Lemma range_from_scalar s : forall k i, Forall (fun p => is_scalar (snd p)) (range_from s k i).
Proof.
  induction s as [|b s IH]; intros k i; [destruct k; constructor|].
  cbn [range_from]. destruct k; [|apply IH]. pose proof (decode_scalar (b :: s)) as Q. destruct (decode_rune _) as [v n].
  constructor; [exact Q|apply IH].
Qed.
Lemma rune_len_ge r : is_scalar r -> 0 <= rune_len r <= 4.
Proof.
  unfold is_scalar, rune_len, MaxRune. intros H.
  repeat match goal with |- context [if ?c then _ else _] => destruct c eqn:? end; lia.
Qed.
Lemma runes_fwd_bounds n l b : Forall (fun p => 0 <= fst p < b) l -> Forall (fun p => is_scalar (snd p)) l ->
  forall c d, move_runes_fwd n l c = Some d -> 0 <= d < b + 4.
Proof.
  induction l as [|[i r] l IH]; intros H1 H2 c d H; [discriminate|]. cbn [move_runes_fwd] in H.
  inversion H1; subst. inversion H2; subst. destruct (n =? c + 1).
  - injection H as <-. cbn [fst snd] in *. pose proof (rune_len_ge r ltac:(assumption)). lia.
  - eapply IH; eauto.
Qed.
Lemma runes_fwd_range n s d : move_runes_fwd n (range_str s) 0 = Some d -> 0 <= d < slen s + 4.
Proof.
  apply runes_fwd_bounds; [|apply range_from_scalar]. pose proof (range_ge s) as G. pose proof (range_lt s) as T.
  rewrite Forall_forall in *. intros p P. split; auto.
Qed.
Lemma int_loop_bounds cf base mn mx neg b l : Forall (fun p => 0 <= fst p < b) l -> forall i n v m, -1 <= n < b ->
  read_int_loop cf base mn mx neg l i n = (v, m) -> -1 <= m < b.
Proof.
  induction l as [|[j r] l IH]; intros F i n v m N H; cbn [read_int_loop] in H; [injection H as _ <-; auto|].
  inversion F; subst. cbn [fst] in *. destruct (_ =? -1); [injection H as _ <-; auto|].
  destruct neg; destruct (_ || _); try (injection H as _ <-; auto; fail); (eapply IH; [auto| |exact H]; lia).
Qed.
Lemma uint_loop_bounds cf base mx b l : Forall (fun p => 0 <= fst p < b) l -> forall i n v m, -1 <= n < b ->
  read_uint_loop cf base mx l i n = (v, m) -> -1 <= m < b.
Proof.
  induction l as [|[j r] l IH]; intros F i n v m N H; cbn [read_uint_loop] in H; [injection H as _ <-; auto|].
  inversion F; subst. cbn [fst] in *. destruct (_ =? -1); [injection H as _ <-; auto|].
  destruct (_ || _); try (injection H as _ <-; auto; fail); (eapply IH; [auto| |exact H]; lia).
Qed.
Lemma range_both s : Forall (fun p => 0 <= fst p < slen s) (range_str s).
Proof.
  pose proof (range_ge s) as G. pose proof (range_lt s) as T. rewrite Forall_forall in *. intros p P. split; auto.
Qed.

(* ------------------------------------------------------------ two places *)

Section Shift.
(** [strict]: errors are ReadErrors for places that lie equally far; [flat]: the places that Map functions are
    told lie equally far, otherwise they may be those of an inner text; [D] the difference of the beginnings;
    [E], [E'] the calls made before. *)
Context {L : GoLib} (strict flat : bool) (D : Z) (E E' : list (nat * token)).
(** [bask]: the same basket, if any, is coupled, and the segments added to the baskets lie equally far; [Old], [Old'] are
    the segments that were there before. *)
Context (bask : bool) (Old Old' : nat -> list segment).
Definition by_k (k : Z) : Prop := k = D \/ (flat = false /\ k = 0).
Definition alike_call (p q : nat * token) : Prop :=
  fst p = fst q /\ exists k, by_k k /\ snd q = mkTok (t_from (snd p) + k) (t_to (snd p) + k).
Definition alike_seg (p q : segment) : Prop := q = mkSeg (s_info p) (mkTok (t_from (s_tok p) + D) (t_to (s_tok p) + D)).
Definition alike_baskets (h h' : heap) : Prop := bask = true -> forall b, exists l l',
  get_basket b h = Old b ++ l /\ get_basket b h' = Old' b ++ l' /\ Forall2 alike_seg l l'.
(** Errors that may be in two entries: both none, or errors for places that lie equally far if [strict]. *)
Definition alike_err (e e' : option err) : Prop :=
  match e, e' with
  | None, None => True
  | Some u, Some v => strict = true -> exists p w, u = EReadError p w /\ v = EReadError (p + D) w
  | _, _ => False
  end.
Definition alike_entry (x y : entry) : Prop :=
  e_info x = e_info y /\ e_level x = e_level y /\ e_enter y = e_enter x + D /\
  ((e_exit x = 0 /\ e_exit y = 0 /\ e_err x = None /\ e_err y = None) \/ (e_exit y = e_exit x + D /\ alike_err (e_err x) (e_err y))).
Definition alike_log (l l' : log) : Prop :=
  l_cur l = l_cur l' /\ l_len l = l_len l' /\ l_cap l = l_cap l' /\ l_level l = l_level l' /\ Forall2 (Forall2 alike_entry) (l_arrs l) (l_arrs l').
Definition alike_logs (h h' : heap) : Prop := bask = true -> forall i, alike_log (get_log i h) (get_log i h').
Definition heaps (h h' : heap) : Prop :=
  h_cells h = h_cells h' /\ h_vals h = h_vals h' /\
  (exists l l', h_events h = E ++ l /\ h_events h' = E' ++ l' /\ Forall2 alike_call l l') /\ alike_baskets h h' /\ alike_logs h h'.

Section Place.
Context (a a' x : bytes).
Definition marks (p q : Z) : Prop := exists d, 0 <= d <= slen x /\ p = slen a + d /\ q = slen a' + d.
Definition rel (s t : st) : Prop :=
  full (sc s) = a ++ x /\ full (sc t) = a' ++ x /\ slen (a ++ x) < 2 ^ 63 /\ slen (a' ++ x) < 2 ^ 63 /\
  marks (pos (sc s)) (pos (sc t)) /\ heaps (hp s) (hp t) /\
  (bask = true -> flat = true /\ slen a' - slen a = D /\ trk (sc s) = trk (sc t) /\
    forall b, Forall (fun g => t_to (s_tok g) <= slen a) (Old b) /\ Forall (fun g => t_to (s_tok g) <= slen a') (Old' b)).
Definition sims {A B} (R : A -> B -> Prop) (m : M A) (m' : M B) : Prop := forall s t, rel s t ->
  match m s, m' t with
  | Ok (u, s'), Ok (v, t') => R u v /\ rel s' t'
  | Panic, Panic => True
  | Fuel, Fuel => True
  | _, _ => False
  end.
Definition errs (e e' : err) : Prop := strict = true -> exists p q w, e = EReadError p w /\ e' = EReadError q w /\ marks p q.
Definition oerrs (e e' : option err) : Prop :=
  match e, e' with None, None => True | Some u, Some v => errs u v | _, _ => False end.
Definition toks (k k' : token) : Prop := marks (t_from k) (t_from k') /\ marks (t_to k) (t_to k') /\ t_from k <= t_to k.
Definition short (u v : bytes) : Prop := u = v /\ slen u < 2 ^ 63.
Definition any {A B} (_ : A) (_ : B) : Prop := True.

Lemma sims_ret {A B} (R : A -> B -> Prop) u v : R u v -> sims R (ret u) (ret v).
Proof. intros H s t T. split; auto. Qed.
Lemma sims_panic {A B} (R : A -> B -> Prop) : sims R panic panic.
Proof. intros s t T. exact I. Qed.
Lemma sims_fuel {A B} (R : A -> B -> Prop) : sims R out_of_fuel out_of_fuel.
Proof. intros s t T. exact I. Qed.
Lemma sims_bind {A A' B B'} (R1 : A -> A' -> Prop) (R : B -> B' -> Prop) m m' f f' : sims R1 m m' ->
  (forall u v, R1 u v -> sims R (f u) (f' v)) -> sims R (bind m f) (bind m' f').
Proof.
  intros H1 H2 s t T. specialize (H1 s t T). unfold bind. destruct (m s) as [[u s']| |], (m' t) as [[v t']| |]; try tauto.
  destruct H1 as [U T']. apply (H2 u v U s' t' T').
Qed.
Lemma sims_weak {A B} (R R' : A -> B -> Prop) m m' : sims R m m' -> (forall u v, R u v -> R' u v) -> sims R' m m'.
Proof.
  intros H W s t T. specialize (H s t T). destruct (m s) as [[u s']| |], (m' t) as [[v t']| |]; try tauto.
  destruct H; split; auto.
Qed.
Lemma sims_if {A B} (R : A -> B -> Prop) (c : bool) m1 m1' m2 m2' : sims R m1 m1' -> sims R m2 m2' -> sims R (if c then m1 else m2) (if c then m1' else m2').
Proof. destruct c; auto. Qed.
(** A [bind] whose first answers are equal. *)
Lemma sims_eq {A B B'} (R : B -> B' -> Prop) m m' (f : A -> M B) (f' : A -> M B') : sims eq m m' ->
  (forall u, sims R (f u) (f' u)) -> sims R (bind m f) (bind m' f').
Proof. intros H1 H2. eapply sims_bind; [exact H1|]. intros u v <-. apply H2. Qed.

Lemma drop_old m l o : Forall (fun g => t_to (s_tok g) <= m) o -> drop_behind m (l ++ o) = drop_behind m l ++ o.
Proof.
  intros F. induction l as [|g l IH]; cbn [app drop_behind].
  - destruct F as [|g o H F]; [reflexivity|]. cbn [drop_behind]. replace (_ <=? m) with true by lia. reflexivity.
  - destruct (_ <=? m); [reflexivity|exact IH].
Qed.
Lemma update_old m o l : Forall (fun g => t_to (s_tok g) <= m) o -> basket_update m (o ++ l) = o ++ basket_update m l.
Proof.
  intros F. unfold basket_update. rewrite rev_app_distr, drop_old by (apply Forall_rev; exact F). rewrite rev_app_distr, rev_involutive. reflexivity.
Qed.
Lemma drop_alike p q l l' : q = p + D -> Forall2 alike_seg l l' -> Forall2 alike_seg (drop_behind p l) (drop_behind q l').
Proof.
  intros Q. induction 1 as [|g g' l l' H F IH]; cbn [drop_behind]; [constructor|]. 
  replace (t_to (s_tok g') <=? q) with (t_to (s_tok g) <=? p) by (unfold alike_seg in H; subst g'; cbn [s_tok t_to]; lia). destruct (_ <=? p); [constructor; assumption|exact IH].
Qed.
Lemma f2_rev {A C} (R : A -> C -> Prop) l l' : Forall2 R l l' -> Forall2 R (rev l) (rev l').
Proof. induction 1; cbn [rev]; [constructor|]. apply Forall2_app; auto. Qed.
Lemma update_alike p q l l' : q = p + D -> Forall2 alike_seg l l' -> Forall2 alike_seg (basket_update p l) (basket_update q l').
Proof. intros Q F. unfold basket_update. apply f2_rev, drop_alike; [exact Q|]. apply f2_rev, F. Qed.
Lemma get_put_bsk b c g h : get_basket c (put_basket b g h) = if Nat.eqb b c then g else get_basket c h.
Proof. unfold get_basket, put_basket. cbn [set_baskets h_baskets]. apply get_put. Qed.
Lemma moveto_rel p q s t : marks p q -> rel s t -> rel (moveto p s) (moveto q t).
Proof.
  intros P (R1 & R2 & R3 & R4 & R5 & R6 & R7). unfold moveto. repeat (split; [assumption|]). cbn [hp sc pos trk]. split; [|exact R7].
  destruct R6 as (C & V & K & Q & G). split; [|split; [|split; [|split] ] ].
  - unfold track. destruct (trk (sc s)), (trk (sc t)); exact C.
  - unfold track. destruct (trk (sc s)), (trk (sc t)); exact V.
  - unfold track. destruct (trk (sc s)), (trk (sc t)); exact K.
  - intros Hb c. specialize (R7 Hb) as (_ & HD & T & O). specialize (Q Hb). rewrite <- T. unfold track. destruct (trk (sc s)) as [b|]; [|apply Q].
    rewrite !get_put_bsk. destruct (Nat.eqb b c) eqn:N; [|apply Q]. apply Nat.eqb_eq in N as ->.
    destruct (Q c) as (l & l' & -> & -> & F). destruct (O c) as [O1 O2]. pose proof P as (d & Bd & P1 & P2).
    exists (basket_update p l), (basket_update q l'). split; [|split].
    + apply update_old. eapply Forall_impl; [|exact O1]. cbn beta. intros g. lia.
    + apply update_old. eapply Forall_impl; [|exact O2]. cbn beta. intros g. lia.
    + apply update_alike; [lia|exact F].
  - unfold track. destruct (trk (sc s)), (trk (sc t)); exact G.
Qed.
Lemma tail_at s d : full (sc s) = a ++ x -> 0 <= d <= slen x -> pos (sc s) = slen a + d -> s_tail s = Ok (skipn (Z.to_nat d) x, s).
Proof.
  intros F B P. unfold s_tail. rewrite F, P, slen_app. pose proof (slen_nonneg a).
  replace (_ && _) with true by lia. replace (Z.to_nat (slen a + d)) with (length a + Z.to_nat d)%nat by (unfold slen; lia).
  rewrite skipn_app, skipn_all2 by lia. replace (length a + Z.to_nat d - length a)%nat with (Z.to_nat d) by lia. reflexivity.
Qed.
End Place.

Section Ops.
Context (a a' x : bytes).
Notation sims := (sims a a' x).
Notation rel := (rel a a' x).
Notation marks := (marks a a' x).
Lemma sims_tail : sims short s_tail s_tail.
Proof.
  intros s t T. pose proof T as (R1 & R2 & R3 & R4 & (d & B & P & Q) & R6).
  rewrite (tail_at a x s d R1 B P), (tail_at a' x t d R2 B Q). split; [|exact T]. split; [reflexivity|].
  rewrite slen_app in R3. pose proof (slen_nonneg a). unfold slen in *. rewrite skipn_length. lia.
Qed.
Lemma sims_move n : 0 <= n < 2 ^ 63 -> sims eq (move n) (move n).
Proof.
  intros N s t T. pose proof T as (R1 & R2 & R3 & R4 & (d & B & P & Q) & R6). unfold move. rewrite R1, R2, P, Q.
  pose proof (slen_nonneg a). pose proof (slen_nonneg a'). rewrite !slen_app in *.
  assert (W : forall c, 0 <= c -> c + slen x < 2 ^ 63 -> (wrap64 (c + d + n) <? 0) || (c + slen x <? wrap64 (c + d + n)) = (slen x <? d + n)).
  { intros c C1 C2. destruct (Z_lt_le_dec (c + d + n) (2 ^ 63)).
    - rewrite wrap64_id by lia. lia.
    - replace (wrap64 (c + d + n)) with (c + d + n - 2 ^ 64); [lia|]. unfold wrap64.
      rewrite <- (Z.mod_unique_pos (c + d + n + 2 ^ 63) (2 ^ 64) 1 (c + d + n - 2 ^ 63)); lia. }
  rewrite !W by lia. destruct (slen x <? d + n) eqn:F; [split; auto|]. split; [reflexivity|]. apply moveto_rel; [|exact T].
  exists (d + n). rewrite !wrap64_id by lia. split; [lia|]. lia.
Qed.
Lemma sims_marker p q : marks p q -> sims eq (to_marker p) (to_marker q).
Proof.
  intros M s t T. pose proof M as (d & B & P & Q). unfold to_marker. pose proof (slen_nonneg a). pose proof (slen_nonneg a').
  replace (p <? 0) with false by lia. replace (q <? 0) with false by lia. cbn [andb]. split; [reflexivity|]. apply moveto_rel; auto.
Qed.
Lemma sims_mark : sims marks mark mark.
Proof. intros s t T. split; [apply T|exact T]. Qed.
Lemma sims_end : sims eq to_end to_end.
Proof.
  intros s t T. pose proof T as (R1 & R2 & _). unfold to_end. rewrite R1, R2. apply sims_marker; [|exact T].
  exists (slen x). rewrite !slen_app. pose proof (slen_nonneg x). lia.
Qed.
Lemma sims_at_end : sims eq at_end at_end.
Proof.
  intros s t T. pose proof T as (R1 & R2 & R3 & R4 & (d & B & P & Q) & R6). unfold at_end, gets. split; [|exact T].
  rewrite R1, R2, P, Q, !slen_app. lia.
Qed.
Lemma make_toks p q p' q' : marks p q -> marks p' q' -> toks a a' x (make_token p p') (make_token q q').
Proof.
  intros M M'. pose proof M as (d & B & -> & ->). pose proof M' as (d' & B' & -> & ->). unfold make_token, toks.
  destruct (slen a + d' <? slen a + d) eqn:F.
  - replace (slen a' + d' <? slen a' + d) with true by lia. cbn. split; auto. split; auto. lia.
  - replace (slen a' + d' <? slen a' + d) with false by lia. cbn. split; auto. split; auto. lia.
Qed.
Lemma slice_tail c (p q : Z) : 0 <= p <= q -> slice (c ++ x) (slen c + p) (slen c + q) = slice x p q.
Proof.
  intros B. unfold slice. replace (Z.to_nat (slen c + p)) with (length c + Z.to_nat p)%nat by (unfold slen; lia).
  rewrite skipn_app, skipn_all2 by lia. replace (length c + Z.to_nat p - length c)%nat with (Z.to_nat p) by lia.
  cbn [app]. f_equal. lia.
Qed.
Lemma sims_get_tok k k' : toks a a' x k k' -> sims short (get_tok k) (get_tok k').
Proof.
  intros ((d & B & P & Q) & (d' & B' & P' & Q') & O) s t T. pose proof T as (R1 & R2 & R3 & _). unfold get_tok.
  rewrite R1, R2, P, Q, P', Q', !slen_app. pose proof (slen_nonneg a). pose proof (slen_nonneg a'). rewrite P, P' in O.
  replace (_ && _) with true by lia. replace (_ && _) with true by lia. rewrite !slice_tail by lia.
  split; [|exact T]. split; [reflexivity|]. rewrite slen_app in R3. unfold slice, slen in *. rewrite firstn_length, skipn_length. lia.
Qed.

Lemma sims_read_tail {A B} (R : A -> B -> Prop) f f' : (forall u, slen u < 2 ^ 63 -> sims R (f u) (f' u)) ->
  sims R (bind s_tail f) (bind s_tail f').
Proof. intros H. eapply sims_bind; [apply sims_tail|]. intros u v [<- Q]. apply H. exact Q. Qed.

(* ------------------------------------------------------- Scanner methods *)

Ltac bd := match goal with H : find_rune _ _ = Some _ |- _ => pose proof (find_rune_bounds _ _ _ H); lia end.
Ltac ms := repeat first
  [ apply sims_read_tail; intros ? ?
  | apply sims_ret; reflexivity
  | apply sims_panic
  | apply sims_end
  | apply sims_move; first [bd | unfold slen in *; lia]
  | match goal with |- sims _ (if ?c then _ else _) _ => destruct c eqn:? end
  | match goal with |- sims _ (match ?c with _ => _ end) _ => destruct c eqn:? end
  | apply sims_eq; [|intros] ].
Lemma decode_small u v i : decode_rune u = (v, i) -> slen u < 2 ^ 63 -> Z.of_nat i < 2 ^ 63.
Proof. intros H B. pose proof (decode_le u) as Q. rewrite H in Q. cbn [snd] in Q. unfold slen in B. lia. Qed.
Lemma prefix_small u str : has_prefix u str = true -> slen u < 2 ^ 63 -> slen str < 2 ^ 63.
Proof. intros H B. apply has_prefix_iff in H as [c ->]. rewrite slen_app in B. pose proof (slen_nonneg c). lia. Qed.
Lemma sims_if_str str : sims eq (if_str str) (if_str str).
Proof.
  unfold if_str. apply sims_read_tail. intros u B. destruct (has_prefix u str) eqn:H; [|ms]. apply sims_move.
  pose proof (slen_nonneg str). pose proof (prefix_small _ _ H B). lia.
Qed.
Lemma sims_if_any l : sims eq (if_any l) (if_any l).
Proof. induction l as [|y l IH]; cbn [if_any]; [ms|]. apply sims_eq; [apply sims_if_str|]. intros []; [ms|exact IH]. Qed.
Lemma sims_to_str str : sims eq (to_str str) (to_str str).
Proof.
  unfold to_str. apply sims_read_tail. intros u B. destruct (index u str) as [i|] eqn:H; [|ms].
  apply index_some in H as (c & c' & -> & <- & _). apply sims_move. rewrite !slen_app in B. pose proof (slen_nonneg str). pose proof (slen_nonneg c').
  pose proof (slen_nonneg c). lia.
Qed.
Lemma sims_if_fold str : sims eq (if_fold str) (if_fold str).
Proof. unfold if_fold. apply sims_read_tail. intros u B. ms. Qed.
Lemma sims_if_rune r : sims eq (if_rune r) (if_rune r).
Proof. unfold if_rune. apply sims_read_tail. intros u B. destruct (decode_rune u) as [v i] eqn:Q. pose proof (decode_small _ _ _ Q B). ms. Qed.
Lemma sims_to_rune r : sims eq (to_rune r) (to_rune r).
Proof. unfold to_rune. ms. Qed.
Lemma sims_while_rune r : sims eq (while_rune r) (while_rune r).
Proof. unfold while_rune. ms. Qed.
Lemma sims_if_any_rune str : sims eq (if_any_rune str) (if_any_rune str).
Proof.
  unfold if_any_rune. induction (runes str) as [|r l IH]; cbn [if_any_rune_loop]; [ms|].
  apply sims_eq; [apply sims_if_rune|]. intros []; [ms|exact IH].
Qed.
Lemma sims_to_any_rune str : sims eq (to_any_rune str) (to_any_rune str).
Proof. unfold to_any_rune, index_any. apply sims_read_tail. intros u B. rewrite index_any_find. ms. Qed.
Lemma sims_while_any_rune str : sims eq (while_any_rune str) (while_any_rune str).
Proof. unfold while_any_rune. ms. Qed.
Lemma sims_if_between mn mx : sims eq (if_between mn mx) (if_between mn mx).
Proof. unfold if_between. apply sims_read_tail. intros u B. destruct (decode_rune u) as [v i] eqn:Q. pose proof (decode_small _ _ _ Q B). ms. Qed.
Lemma sims_to_between mn mx : sims eq (to_between mn mx) (to_between mn mx).
Proof. unfold to_between. ms. Qed.
Lemma sims_while_between mn mx : sims eq (while_between mn mx) (while_between mn mx).
Proof. unfold while_between. ms. Qed.
Lemma sims_if_match f : sims eq (if_match f) (if_match f).
Proof. unfold if_match. apply sims_read_tail. intros u B. destruct (decode_rune u) as [v i] eqn:Q. pose proof (decode_small _ _ _ Q B). ms. Qed.
Lemma sims_to_match f : sims eq (to_match f) (to_match f).
Proof. unfold to_match. ms. Qed.
Lemma sims_while_match f : sims eq (while_match f) (while_match f).
Proof. unfold while_match. ms. Qed.
Lemma fold_loop_bounds sub str k : forall n d, 0 <= n -> to_fold_loop sub str k n = Some d -> 0 <= d <= slen sub.
Proof.
  induction k as [|k IH]; intros n d N H; cbn [to_fold_loop] in H; destruct (slen sub <? slen str + n) eqn:Q; try discriminate;
    destruct (equal_fold _ _); try discriminate; try (injection H as <-; pose proof (slen_nonneg str); lia).
  apply IH in H; lia.
Qed.
Lemma sims_to_fold str : sims eq (to_fold str) (to_fold str).
Proof.
  unfold to_fold. apply sims_read_tail. intros u B. destruct (to_fold_loop _ _ _ _) as [d|] eqn:Q; [|ms].
  apply fold_loop_bounds in Q; [|lia]. apply sims_move. lia.
Qed.
Lemma prefix_loop_short str n l : Forall (fun p => 0 <= fst p) l -> forall c, slen (fst (get_prefix_loop str n l c)) <= slen str.
Proof.
  induction 1 as [|[i v] l P F IH]; intros c; cbn [get_prefix_loop]; [cbn [fst]; lia|].
  destruct (c =? n); [|apply IH]. cbn [fst]. unfold slen. rewrite firstn_length. lia.
Qed.
Lemma sims_scan_string n : sims eq (scan_string n) (scan_string n).
Proof.
  unfold scan_string. apply sims_read_tail. intros u B. pose proof (prefix_loop_short u n (range_str u) (range_ge u) 0) as Q.
  unfold get_prefix. destruct (get_prefix_loop _ _ _ _) as [sub ok]. cbn [fst] in Q. destruct ok; [|ms].
  apply sims_eq; [|intros; ms]. apply sims_move. pose proof (slen_nonneg sub). lia.
Qed.
Lemma sims_move_runes n : 0 <= n -> sims eq (move_runes n) (move_runes n).
Proof.
  intros N. unfold move_runes. destruct (0 <? n) eqn:Q; [|replace (n <? 0) with false by lia; ms].
  intros s t T. pose proof T as (R1 & R2 & R3 & R4 & (d & B & P & P') & R6).
  unfold bind. rewrite (tail_at a x s d R1 B P), (tail_at a' x t d R2 B P').
  destruct (move_runes_fwd _ _ _) as [k|] eqn:K; [|split; auto]. apply runes_fwd_range in K.
  destruct (Z_lt_le_dec k (2 ^ 63)); [apply sims_move; [lia|exact T]|].
  assert (K' : k < slen x - d + 4) by (unfold slen in *; rewrite skipn_length in K; lia).
  unfold move. rewrite R1, R2, P, P', !slen_app in *. pose proof (slen_nonneg a). pose proof (slen_nonneg a').
  assert (W : forall c, 0 <= c -> c + slen x < 2 ^ 63 -> (wrap64 (c + d + k) <? 0) || (c + slen x <? wrap64 (c + d + k)) = true).
  { intros c C1 C2. replace (wrap64 (c + d + k)) with (c + d + k - 2 ^ 64); [lia|]. unfold wrap64.
    rewrite <- (Z.mod_unique_pos (c + d + k + 2 ^ 63) (2 ^ 64) 1 (c + d + k - 2 ^ 63)); lia. }
  rewrite !W by lia. split; [reflexivity|exact T].
Qed.

(* ---------------------------------------------------- Scope, While and Use *)

Notation oerrs := (oerrs a a' x).
Definition verrs {A} (u v : A * option err) : Prop := fst u = fst v /\ oerrs (snd u) (snd v).
Lemma sims_bind_mark {A B} (R : A -> B -> Prop) f f' : (forall p q, marks p q -> sims R (f p) (f' q)) -> sims R (bind mark f) (bind mark f').
Proof. intros H. eapply sims_bind; [apply sims_mark|exact H]. Qed.
Lemma sims_then {A B} (R : A -> B -> Prop) (m m' : M bool) f f' : sims eq m m' -> sims R f f' -> sims R (m ;; f) (m' ;; f').
Proof. intros H1 H2. apply (sims_eq a a' x); [exact H1|auto]. Qed.
Lemma sims_error_for w : sims oerrs (error_for w) (error_for w).
Proof. unfold error_for. apply sims_bind_mark. intros p q M. apply sims_ret. cbn. intros _. exists p, q, w. auto. Qed.
Lemma sims_error_if ok w : sims oerrs (error_if_false ok w) (error_if_false ok w).
Proof. unfold error_if_false. destruct ok; [apply sims_ret; exact I|apply sims_error_for]. Qed.
Lemma sims_scope m m' : sims eq m m' -> sims eq (scope m) (scope m').
Proof.
  intros H. unfold scope. apply sims_bind_mark. intros p q M. apply sims_eq; [exact H|]. intros []; [ms|].
  apply sims_then; [apply sims_marker; auto|ms].
Qed.
Lemma sims_while n m m' : sims eq m m' -> sims eq (while_f n m) (while_f n m').
Proof.
  intros H. unfold while_f. apply sims_bind_mark. intros p q M.
  eapply (sims_bind a a' x eq).
  - induction n as [|n IH]; cbn [while_loop]; [apply sims_fuel|]. apply sims_eq; [exact H|]. intros []; [exact IH|ms].
  - intros _ _ _. apply sims_bind_mark. intros p' q' M'. apply sims_ret. destruct M as (d & B & -> & ->), M' as (d' & B' & -> & ->). lia.
Qed.
Lemma sims_since p q : marks p q -> sims eq (since p) (since q).
Proof.
  intros M. unfold since. apply sims_bind_mark. intros p' q' M'. eapply sims_weak; [apply sims_get_tok, make_toks; auto|].
  intros u v [K _]. exact K.
Qed.
Lemma sims_trace m m' : sims eq m m' -> sims eq (trace m) (trace m').
Proof.
  intros H. unfold trace. apply sims_bind_mark. intros p q M. apply sims_eq; [exact H|]. intros b. apply sims_eq; [apply sims_since; auto|].
  intros u. destruct b; [ms|]. apply sims_then; [apply sims_marker; auto|ms].
Qed.
Lemma sims_tokenize m m' : sims eq m m' -> sims (fun u v => toks a a' x (fst u) (fst v) /\ snd u = snd v) (tokenize m) (tokenize m').
Proof.
  intros H. unfold tokenize. apply sims_bind_mark. intros p q M. apply sims_eq; [exact H|]. intros b. apply sims_bind_mark. intros p' q' M'.
  destruct b; [|apply sims_then; [apply sims_marker; auto|]]; apply sims_ret; (split; [apply make_toks; auto|reflexivity]).
Qed.
Lemma sims_capture m m' : sims eq m m' -> sims eq (capture m) (capture m').
Proof.
  intros H. unfold capture. eapply sims_bind; [apply sims_tokenize, H|]. intros [k b] [k' b'] [T Q]. cbn [fst snd] in *. subst b'.
  destruct b; [|ms]. eapply sims_bind; [apply sims_get_tok; exact T|]. intros u v [-> _]. ms.
Qed.
Lemma sims_use m m' : sims oerrs m m' -> sims oerrs (use m) (use m').
Proof.
  intros H. unfold use. apply sims_bind_mark. intros p q M. eapply sims_bind; [exact H|]. intros [u|] [v|] O; try contradiction.
  - apply sims_then; [apply sims_marker; auto|apply sims_ret; exact O].
  - apply sims_ret. exact I.
Qed.
Lemma sims_tokenize_use m m' : sims oerrs m m' ->
  sims (fun u v => toks a a' x (fst u) (fst v) /\ oerrs (snd u) (snd v)) (tokenize_use m) (tokenize_use m').
Proof.
  intros H. unfold tokenize_use. apply sims_bind_mark. intros p q M. eapply sims_bind; [exact H|]. intros [u|] [v|] O; try contradiction.
  - apply sims_then; [apply sims_marker; auto|]. apply sims_bind_mark. intros p' q' M'. apply sims_ret. split; [apply make_toks; auto|exact O].
  - apply sims_bind_mark. intros p' q' M'. apply sims_ret. split; [apply make_toks; auto|exact O].
Qed.

(* ---------------------------------------------------------- read.go *)

Lemma sims_other {A} (b : A) m : strict = false -> sims verrs (ret (b, Some (EOther m))) (ret (b, Some (EOther m))).
Proof. intros H. apply sims_ret. split; [reflexivity|]. cbn. intros K. congruence. Qed.
Lemma sims_err {A} (b : A) w : sims verrs (let* e := error_for w in ret (b, e)) (let* e := error_for w in ret (b, e)).
Proof. eapply sims_bind; [apply sims_error_for|]. intros u v O. apply sims_ret. split; [reflexivity|exact O]. Qed.
Lemma sims_val {A} (b : A) : sims verrs (ret (b, None)) (ret (b, None)).
Proof. apply sims_ret. split; [reflexivity|exact I]. Qed.
Lemma sims_read_rune : sims verrs read_rune read_rune.
Proof.
  unfold read_rune. apply sims_read_tail. intros u B. destruct (decode_rune u) as [v i] eqn:Q. pose proof (decode_small _ _ _ Q B).
  destruct (_ =? _); [apply sims_err|]. apply sims_eq; [apply sims_move; lia|]. intros ok.
  eapply sims_bind; [apply sims_error_if|]. intros y z O. apply sims_ret. split; [reflexivity|exact O].
Qed.
Lemma sims_bool_strs y n : sims verrs (read_bool_strs y n) (read_bool_strs y n).
Proof.
  unfold read_bool_strs. apply sims_eq; [apply sims_if_str|]. intros []; [apply sims_val|].
  apply sims_eq; [apply sims_if_str|]. intros []; [apply sims_val|apply sims_err].
Qed.
Definition good_format (f : bytes) : bool := existsb (bytes_eqb f) [ []; lit "*"; lit "l"; lit "U"; lit "Cc" ].
Lemma sims_read_bool f : (strict = true -> good_format f = true) -> sims verrs (read_bool f) (read_bool f).
Proof.
  intros G. unfold read_bool. destruct (_ || _) eqn:Q1.
  { apply sims_eq; [apply sims_if_any|]. intros []; [apply sims_val|]. apply sims_eq; [apply sims_if_any|].
    intros []; [apply sims_val|apply sims_err]. }
  destruct (bytes_eqb f (lit "l")) eqn:Q2; [apply sims_bool_strs|]. destruct (bytes_eqb f (lit "U")) eqn:Q3; [apply sims_bool_strs|].
  destruct (bytes_eqb f (lit "Cc")) eqn:Q4; [apply sims_bool_strs|]. apply sims_other. destruct strict; [|reflexivity].
  specialize (G eq_refl). unfold good_format in G. cbn [existsb] in G. rewrite Q2, Q3, Q4 in G. destruct (bytes_eqb f []), (bytes_eqb f (lit "*")); discriminate.
Qed.
Definition good_int (base bits : Z) : bool := match char_func base, int_bounds bits with Some _, Some _ => true | _, _ => false end.
Definition good_uint (base bits : Z) : bool := match char_func base, uint_max bits with Some _, Some _ => true | _, _ => false end.
Lemma sims_read_int base bits : (strict = true -> good_int base bits = true) -> sims verrs (read_int base bits) (read_int base bits).
Proof.
  unfold good_int, read_int. intros G. destruct (char_func base) as [cf|]; [|apply sims_other; destruct strict; [discriminate (G eq_refl)|reflexivity] ].
  destruct (int_bounds bits) as [[mn mx]|]; [|apply sims_other; destruct strict; [discriminate (G eq_refl)|reflexivity] ].
  apply sims_bind_mark. intros p q M. apply sims_eq; [apply sims_if_rune|]. intros neg.
  apply sims_then; [destruct neg; [ms|apply sims_if_rune]|]. apply sims_read_tail. intros u B.
  destruct (read_int_loop _ _ _ _ _ _ _ _) as [i n] eqn:Q. apply (int_loop_bounds _ _ _ _ _ (slen u)) in Q; [|apply range_both|pose proof (slen_nonneg u); lia].
  destruct (n =? -1) eqn:N; [apply sims_then; [apply sims_marker; auto|apply sims_err]|].
  apply sims_then; [apply sims_move; lia|apply sims_val].
Qed.
Lemma sims_read_uint base bits : (strict = true -> good_uint base bits = true) -> sims verrs (read_uint base bits) (read_uint base bits).
Proof.
  unfold good_uint, read_uint. intros G. destruct (char_func base) as [cf|]; [|apply sims_other; destruct strict; [discriminate (G eq_refl)|reflexivity] ].
  destruct (uint_max bits) as [mx|]; [|apply sims_other; destruct strict; [discriminate (G eq_refl)|reflexivity] ].
  apply sims_read_tail. intros u B.
  destruct (read_uint_loop _ _ _ _ _ _) as [i n] eqn:Q. apply (uint_loop_bounds _ _ _ (slen u)) in Q; [|apply range_both|pose proof (slen_nonneg u); lia].
  destruct (n =? -1) eqn:N; [apply sims_err|].
  apply sims_then; [apply sims_move; lia|apply sims_val].
Qed.

(* ------------------------------------------------------------- the heap *)

Lemma sims_heap f g : (forall h h', heaps h h' -> heaps (f h) (g h')) -> sims eq (modh f) (modh g).
Proof.
  intros H s t (R1 & R2 & R3 & R4 & R5 & R6 & R7). unfold modh, modify. split; [reflexivity|]. repeat (split; [assumption|]). split; [apply H, R6|exact R7].
Qed.
Lemma sims_gets {A B} (R : A -> B -> Prop) f g : (forall s t, rel s t -> R (f s) (g t)) -> sims R (gets f) (gets g).
Proof. intros H s t T. split; [apply H, T|exact T]. Qed.
Lemma heaps_val i v h h' : heaps h h' -> heaps (put_val i v h) (put_val i v h').
Proof. intros (C & V & K). split; [exact C|]. split; [cbn; rewrite V; reflexivity|exact K]. Qed.
Lemma heaps_cell c v h h' : heaps h h' -> heaps (put_cell c v h) (put_cell c v h').
Proof. intros (C & V & K). split; [cbn; rewrite C; reflexivity|]. split; [exact V|exact K]. Qed.
Lemma heaps_event id k k' h h' : by_k (slen a' - slen a) -> toks a a' x k k' -> heaps h h' -> heaps (add_event id k h) (add_event id k' h').
Proof.
  intros Y (M1 & M2 & _) (C & V & (l & l' & K & K' & F) & Q0). split; [exact C|]. split; [exact V|]. split; [|exact Q0].
  exists (l ++ [(id, k)]), (l' ++ [(id, k')]). cbn [add_event set_events h_events]. rewrite K, K', !app_assoc. split; [reflexivity|]. split; [reflexivity|].
  apply Forall2_app; [exact F|]. constructor; [|constructor]. split; [reflexivity|]. exists (slen a' - slen a). split; [exact Y|].
  destruct M1 as (d & _ & P & Q), M2 as (d' & _ & P' & Q'). destruct k as [u v], k' as [u' v']. cbn in *. f_equal; lia.
Qed.

(* ------------------------------------------------------------- loops *)

Lemma later_same p q p' q' : marks p q -> marks p' q' -> err_later p p' = err_later q q'.
Proof. intros (d & B & -> & ->) (d' & B' & -> & ->). unfold err_later. lia. Qed.
Lemma deepest_loop_same l l' : Forall2 (errs a a' x) l l' -> strict = true -> forall p q w, marks p q ->
  errs a a' x (deepest_loop l p w) (deepest_loop l' q w).
Proof.
  intros F St. induction F as [|u v l l' H F IH]; intros p q w M; [intros _; exists p, q, w; auto|].
  destruct (H St) as (p1 & q1 & w1 & -> & -> & M1). cbn [deepest_loop]. rewrite (later_same p1 q1 p q M1 M). destruct (err_later q1 q); apply IH; auto.
Qed.
Lemma deepest_same l l' : Forall2 (errs a a' x) l l' -> (strict = true -> l <> []) -> errs a a' x (get_deepest l) (get_deepest l').
Proof.
  intros F N St. specialize (N St). destruct F as [|u v l l' H F]; [congruence|]. destruct (H St) as (p1 & q1 & w1 & -> & -> & M1).
  unfold get_deepest. cbn [deepest_loop]. pose proof M1 as (d & B & P & Q). pose proof (slen_nonneg a). pose proof (slen_nonneg a').
  unfold err_later. replace (0 <=? p1) with true by lia. replace (0 <=? q1) with true by lia. apply (deepest_loop_same l l' F St p1 q1 w1 M1 St).
Qed.
Lemma sims_any l l' : Forall2 (sims oerrs) l l' -> forall p q es es', marks p q -> Forall2 (errs a a' x) es es' -> (strict = true -> l <> [] \/ es <> []) ->
  sims oerrs (any_loop l p es) (any_loop l' q es').
Proof.
  induction 1 as [|m m' l l' H F IH]; intros p q es es' M G N; cbn [any_loop].
  - apply sims_then; [apply sims_marker; auto|]. apply sims_ret. cbn [Shift.oerrs]. apply deepest_same; [exact G|]. intros St. destruct (N St); congruence.
  - eapply sims_bind; [exact H|]. intros [u|] [v|] O; try contradiction; [|apply sims_ret; exact I].
    apply IH; [exact M|apply Forall2_app; auto|]. intros _. right. destruct es; discriminate.
Qed.
Lemma sims_seq l l' : Forall2 (sims oerrs) l l' -> forall p q, marks p q -> sims oerrs (seq_loop l p) (seq_loop l' q).
Proof.
  induction 1 as [|m m' l l' H F IH]; intros p q M; cbn [seq_loop]; [apply sims_ret; exact I|].
  eapply sims_bind; [exact H|]. intros [u|] [v|] O; try contradiction; [|apply IH; auto].
  apply sims_then; [apply sims_marker; auto|apply sims_ret; exact O].
Qed.
Lemma sims_skip_loop k k' l l' : sims oerrs k k' -> Forall2 (sims oerrs) l l' -> forall u v, oerrs u v -> sims oerrs (skip_loop k l u) (skip_loop k' l' v).
Proof.
  intros K. induction 1 as [|m m' l l' H F IH]; intros u v O; cbn [skip_loop]; [apply sims_ret; exact O|].
  destruct u as [u|], v as [v|]; try contradiction; [apply sims_ret; exact O|]. eapply sims_bind; [exact H|].
  intros [y|] [z|] O'; try contradiction; [apply IH; exact O'|]. eapply sims_bind; [exact K|]. intros y z Y. apply IH. exact Y.
Qed.
Lemma sims_skip_seq k k' l l' : sims oerrs k k' -> Forall2 (sims oerrs) l l' -> sims oerrs (skip_seq k l) (skip_seq k' l').
Proof.
  intros K F. unfold skip_seq. apply sims_bind_mark. intros p q M. eapply sims_bind; [exact K|]. intros u v O.
  eapply sims_bind; [apply sims_skip_loop; [exact K|exact F|exact O]|]. intros [y|] [z|] O'; try contradiction; [|apply sims_ret; exact I].
  apply sims_then; [apply sims_marker; auto|apply sims_ret; exact O'].
Qed.
Lemma sims_rep n m m' : sims oerrs m m' -> sims eq (rep_loop n m) (rep_loop n m').
Proof.
  intros H. induction n as [|n IH]; cbn [rep_loop]; [apply sims_fuel|]. eapply sims_bind; [exact H|].
  intros [u|] [v|] O; try contradiction; [apply sims_ret; reflexivity|exact IH].
Qed.
Lemma sims_times n m m' : sims oerrs m m' -> sims oerrs (times_loop n m) (times_loop n m').
Proof.
  intros H. induction n as [|n IH]; cbn [times_loop]; [apply sims_ret; exact I|]. eapply sims_bind; [exact H|].
  intros [u|] [v|] O; try contradiction; [apply sims_ret; exact O|exact IH].
Qed.
Lemma sims_past n m m' : sims oerrs m m' -> sims eq (past_loop n m) (past_loop n m').
Proof.
  intros H. induction n as [|n IH]; cbn [past_loop]; [apply sims_fuel|]. apply sims_eq; [apply sims_at_end|]. intros []; [ms|].
  eapply sims_bind; [exact H|]. intros [u|] [v|] O; try contradiction; [|ms]. apply sims_then; [apply sims_move_runes; lia|exact IH].
Qed.
Lemma sims_to n m m' : sims oerrs m m' -> sims eq (to_loop n m) (to_loop n m').
Proof.
  intros H. induction n as [|n IH]; cbn [to_loop]; [apply sims_fuel|]. apply sims_bind_mark. intros p q M.
  eapply sims_bind; [exact H|]. intros [u|] [v|] O; try contradiction.
  - apply sims_eq; [apply sims_move_runes; lia|]. intros []; [exact IH|ms].
  - apply sims_then; [apply sims_marker; auto|ms].
Qed.
Lemma sims_ranges l : sims eq (between_any_loop l) (between_any_loop l).
Proof. induction l as [|[mn mx] l IH]; cbn [between_any_loop]; [ms|]. apply sims_eq; [apply sims_if_between|]. intros []; [ms|exact IH]. Qed.
Lemma sims_moves l l' : Forall2 marks l l' -> sims eq (do_moves l) (do_moves l').
Proof. induction 1 as [|p q l l' M F IH]; cbn [do_moves]; [apply sims_ret; reflexivity|]. apply sims_then; [apply sims_marker; auto|exact IH]. Qed.
Lemma f2_nth {A C} (R : A -> C -> Prop) d d' l l' : R d d' -> Forall2 R l l' -> forall n, R (nth n l d) (nth n l' d').
Proof. intros H. induction 1; intros [|n]; cbn [nth]; auto. Qed.
Lemma f2_firstn {A C} (R : A -> C -> Prop) l l' : Forall2 R l l' -> forall n, Forall2 R (firstn n l) (firstn n l').
Proof. induction 1; intros [|n]; cbn [firstn]; constructor; auto. Qed.
Lemma f2_upd {A C} (R : A -> C -> Prop) f g l l' : (forall u v, R u v -> R (f u) (g v)) -> Forall2 R l l' -> forall n, Forall2 R (upd l n f) (upd l' n g).
Proof. intros H. induction 1; intros [|n]; cbn [upd]; constructor; auto. Qed.
Lemma f2_length {A C} (R : A -> C -> Prop) l l' : Forall2 R l l' -> length l = length l'.
Proof. induction 1; cbn; congruence. Qed.
Lemma f2_put {A C} (R : A -> C -> Prop) d d' u v l l' : R d d' -> R u v -> Forall2 R l l' -> forall n, Forall2 R (put d l n u) (put d' l' n v).
Proof.
  intros H U F n. revert l l' F. induction n as [|n IH]; intros l l' F; destruct F; cbn [put]; constructor; auto.
Qed.
Lemma entries_alike l l' : alike_log l l' -> Forall2 alike_entry (log_entries l) (log_entries l').
Proof.
  intros (C & N & _ & _ & F). unfold log_entries. rewrite C, N. apply f2_firstn. apply f2_nth; [constructor|exact F].
Qed.
Lemma enter_alike info p q l l' : q = p + D -> alike_log l l' ->
  fst (log_enter info p l) = fst (log_enter info q l') /\ alike_log (snd (log_enter info p l)) (snd (log_enter info q l')).
Proof.
  intros Q A. pose proof A as (C & N & K & V & F). pose proof (entries_alike _ _ A) as G. unfold log_enter. rewrite C, N, K, V.
  assert (X : Forall2 alike_entry (log_entries l ++ [mkEntry p info (l_level l' + 1) 0 None]) (log_entries l' ++ [mkEntry q info (l_level l' + 1) 0 None])).
  { apply Forall2_app; [exact G|]. constructor; [|constructor]. split; [reflexivity|]. split; [reflexivity|]. split; [exact Q|]. left. auto. }
  rewrite (f2_length _ _ _ F). destruct (Nat.ltb _ _); cbn [fst snd].
  - split; [reflexivity|]. repeat (split; [reflexivity|]). cbn [l_arrs]. apply f2_put; [constructor|exact X|exact F].
  - split; [reflexivity|]. repeat (split; [reflexivity|]). cbn [l_arrs]. apply Forall2_app; [exact F|]. constructor; [exact X|constructor].
Qed.
Lemma exit_alike k p q u v l l' : q = p + D -> alike_err u v -> alike_log l l' -> alike_log (log_exit k p u l) (log_exit k q v l').
Proof.
  intros Q U (C & N & K & V & F). unfold log_exit. split; [exact C|]. split; [exact N|]. split; [exact K|]. split; [cbn; rewrite V; reflexivity|]. cbn [l_arrs].
  apply f2_upd; [|exact F]. intros y z Y. apply f2_upd; [|exact Y]. intros g h (I & Lv & En & _). split; [exact I|]. split; [exact Lv|]. split; [exact En|]. right. auto.
Qed.
Lemma get_put_lg i j g h : get_log j (put_log i g h) = if Nat.eqb i j then g else get_log j h.
Proof. unfold get_log, put_log. cbn [set_logs h_logs]. apply get_put. Qed.
Lemma sims_logs {A C} (R : A -> C -> Prop) i f g m m' : (bask = true -> slen a' - slen a = D -> forall l l', alike_log l l' -> alike_log (f l) (g l')) -> sims R m m' ->
  sims R (modh (fun h => put_log i (f (get_log i h)) h) ;; m) (modh (fun h => put_log i (g (get_log i h)) h) ;; m').
Proof.
  intros F H. apply (sims_bind a a' x eq); [|intros _ _ _; exact H].
  intros s t (R1 & R2 & R3 & R4 & R5 & (C1 & V1 & K1 & Q1 & G1) & R7). unfold modh, modify. split; [reflexivity|]. repeat (split; [assumption|]). split; [|exact R7].
  split; [exact C1|]. split; [exact V1|]. split; [exact K1|]. split; [exact Q1|]. intros Hb j. cbn [hp with_heap]. rewrite !get_put_lg.
  specialize (G1 Hb). destruct (Nat.eqb i j) eqn:N; [|apply G1]. apply F; [exact Hb|apply (R7 Hb)|apply G1].
Qed.
Lemma sims_pick {A C} (R : A -> C -> Prop) info b k k' m m' : toks a a' x k k' -> sims R m m' ->
  sims R (modh (basket_add b (mkSeg info k)) ;; m) (modh (basket_add b (mkSeg info k')) ;; m').
Proof.
  intros (M1 & M2 & _) H. apply (sims_bind a a' x eq); [|intros _ _ _; exact H].
  intros s t (R1 & R2 & R3 & R4 & R5 & (C1 & V1 & K1 & Q1 & G1) & R7). unfold modh, modify. split; [reflexivity|]. repeat (split; [assumption|]). split; [|exact R7].
  split; [exact C1|]. split; [exact V1|]. split; [exact K1|]. split; [|exact G1]. intros Hb c. cbn [hp with_heap]. unfold basket_add. rewrite !get_put_bsk.
  specialize (Q1 Hb). destruct (Nat.eqb b c) eqn:N; [|apply Q1]. apply Nat.eqb_eq in N as ->. destruct (Q1 c) as (l & l' & -> & -> & F).
  exists (l ++ [mkSeg info k]), (l' ++ [mkSeg info k']). rewrite !app_assoc. split; [reflexivity|]. split; [reflexivity|]. apply Forall2_app; [exact F|].
  constructor; [|constructor]. destruct (R7 Hb) as (_ & HD & _). destruct M1 as (d & _ & P & Q), M2 as (d' & _ & P' & Q').
  destruct k as [u v], k' as [u' v']. unfold alike_seg. cbn in *. f_equal. f_equal; lia.
Qed.
End Ops.

(** A reader on a new Scanner for the same text. *)
Definition both (e e' : option err) : Prop := match e, e' with None, None | Some _, Some _ => True | _, _ => False end.
Lemma sims_sub a a' x u m m' : bask = false -> slen u < 2 ^ 63 -> sims [] [] u (oerrs [] [] u) m m' ->
  sims a a' x (fun y z => both (fst y) (fst z) /\ snd y = snd z) (on_sub u m) (on_sub u m').
Proof.
  intros Nb B H s t (R1 & R2 & R3 & R4 & R5 & R6 & R7). unfold on_sub.
  assert (K : sims [] [] u (fun y z => both (fst y) (fst z) /\ snd y = snd z) (let* e := use m in let* fin := at_end in ret (e, fin)) (let* e := use m' in let* fin := at_end in ret (e, fin))).
  { eapply sims_bind; [apply sims_use, H|]. intros y z O. apply sims_eq; [apply sims_at_end|]. intros b. apply sims_ret. split; [|reflexivity].
    destruct y, z; try contradiction; exact I. }
  specialize (K (mkSt (new_scanner u) (hp s)) (mkSt (new_scanner u) (hp t))).
  assert (T : rel [] [] u (mkSt (new_scanner u) (hp s)) (mkSt (new_scanner u) (hp t))).
  { split; [reflexivity|]. split; [reflexivity|]. split; [exact B|]. split; [exact B|]. split; [|split; [exact R6|congruence] ]. exists 0. cbn. pose proof (slen_nonneg u). lia. }
  specialize (K T). destruct (bind _ _ _) as [[y s']| |], (bind _ _ _) as [[z t']| |]; try tauto.
  destruct K as [Y T']. split; [exact Y|]. split; [exact R1|]. split; [exact R2|]. split; [exact R3|]. split; [exact R4|]. split; [exact R5|]. split; [apply T'|congruence].
Qed.
Lemma sims_body a a' x n p q b b' m m' back : bask = false -> marks a a' x p q -> (forall u, slen u < 2 ^ 63 -> sims [] [] u (oerrs [] [] u) b b') ->
  sims a a' x (oerrs a a' x) m m' -> sims a a' x eq (body_loop n p b m back) (body_loop n q b' m' back).
Proof.
  intros Nb M S H. induction n as [|n IH]; cbn [body_loop]; [apply sims_fuel|]. apply sims_eq; [apply sims_at_end|]. intros []; [apply sims_ret; reflexivity|].
  apply sims_bind_mark. intros p' q' M'. eapply sims_bind; [exact H|]. intros [u|] [v|] O; try contradiction.
  - apply sims_then; [apply sims_move_runes; lia|exact IH].
  - eapply sims_bind; [apply sims_get_tok, make_toks; eauto|]. intros y z [<- B]. eapply sims_bind; [apply sims_sub; [exact Nb|exact B|apply S, B]|].
    intros [y1 y2] [z1 z2] [O1 O2]. cbn [fst snd] in *. subst z2. destruct y1, z1; try contradiction; [apply sims_ret; reflexivity|].
    apply sims_if; [apply sims_ret; reflexivity|]. apply sims_if; [|apply sims_ret; reflexivity]. apply sims_then; [apply sims_marker; auto|apply sims_ret; reflexivity].
Qed.

(* ------------------------------------------------------------- readers *)

(** A Wrap function that looks only at the text from the position on. *)
Definition wraps_on (f : bytes -> Z -> list Z * option err) : Prop := forall a a' x d, 0 <= d <= slen x ->
  Forall2 (marks a a' x) (fst (f (a ++ x) (slen a + d))) (fst (f (a' ++ x) (slen a' + d))) /\
  oerrs a a' x (snd (f (a ++ x) (slen a + d))) (snd (f (a' ++ x) (slen a' + d))).
Definition placed (r : reader) : Prop :=
  match r with
  | RAny rs => strict = true -> rs <> []
  | RBody _ _ | RBodyTail _ _ => flat = false /\ bask = false
  | RBool _ f => strict = true -> good_format f = true
  | RInt _ base bits => strict = true -> good_int base bits = true
  | RUint _ base bits => strict = true -> good_uint base bits = true
  | RInvalid _ | RGrammar _ _ _ => strict = false
  | RWrap _ f => wraps_on f
  | _ => True
  end.

Section Readers.
Context (e : env) (He : eallP placed e).
Lemma sims_read n : forall r a a' x, by_k (slen a' - slen a) -> rallP placed r -> sims a a' x (oerrs a a' x) (read n e r) (read n e r).
Proof.
  induction n as [|n IH]; intros r a a' x Y P; [apply sims_fuel|].
  assert (IL : forall rs, fold_right (fun y q => rallP placed y /\ q) True rs -> Forall2 (sims a a' x (oerrs a a' x)) (map (read n e) rs) (map (read n e) rs)).
  { induction rs as [|y rs IHr]; cbn [fold_right map]; [constructor|]. intros [Q1 Q2]. constructor; [apply IH; auto|apply IHr; auto]. }
  destruct r; cbn [rallP placed] in P; cbn [read].
  - apply sims_bind_mark. intros p q M. apply sims_any; [apply IL, P|exact M|constructor|]. intros St. left. destruct P as [P _]. specialize (P St). destruct rs; [congruence|discriminate].
  - apply sims_eq; [apply sims_if_any_rune|]. intros ok. apply sims_error_if.
  - apply sims_bind_mark. intros p q M. eapply sims_bind; [apply IH; [exact Y|apply P]|]. intros u v O. apply sims_then; [apply sims_marker; auto|apply sims_ret; exact O].
  - apply sims_eq; [apply sims_at_end|]. intros ok. apply sims_error_if.
  - apply sims_eq; [apply sims_if_between|]. intros ok. apply sims_error_if.
  - apply sims_bind_mark. intros p q M. apply sims_eq; [apply sims_ranges|]. intros []; [apply sims_ret; exact I|].
    apply sims_eq; [apply sims_if_any_rune|]. intros []; [apply sims_ret; exact I|]. apply sims_then; [apply sims_marker; auto|apply sims_error_for].
  - apply sims_bind_mark. intros p q M. destruct P as (P0 & P1 & P2). apply sims_eq; [apply sims_body; [apply P0|exact M| |apply IH; auto]|].
    + intros u _. apply IH; [right; split; [apply P0|reflexivity]|exact P1].
    + intros []; [apply sims_ret; exact I|]. apply sims_then; [apply sims_marker; auto|apply sims_error_for].
  - apply sims_bind_mark. intros p q M. destruct P as (P0 & P1 & P2). apply sims_eq; [apply sims_body; [apply P0|exact M| |apply IH; auto]|].
    + intros u _. apply IH; [right; split; [apply P0|reflexivity]|exact P1].
    + intros []; [apply sims_ret; exact I|]. apply sims_then; [apply sims_marker; auto|apply sims_error_for].
  - eapply sims_bind; [apply sims_read_bool, P|]. intros [u1 u2] [v1 v2] [<- O]. cbn [fst snd] in *.
    eapply sims_bind; [apply sims_heap; intros; apply heaps_val; assumption|]. intros _ _ _. apply sims_ret. exact O.
  - apply sims_eq; [apply sims_if_fold|]. intros ok. apply sims_error_if.
  - apply sims_read_tail. intros u B. destruct (decode_rune u) as [v i] eqn:Q. pose proof (decode_small _ _ _ Q B).
    apply sims_if; [|apply sims_error_for]. apply sims_eq; [apply sims_move; lia|]. intros ok. apply sims_error_if.
  - eapply sims_bind; [apply sims_read_int, P|]. intros [u1 u2] [v1 v2] [<- O]. cbn [fst snd] in *.
    eapply sims_bind; [apply sims_heap; intros; apply heaps_val; assumption|]. intros _ _ _. apply sims_ret. exact O.
  - eapply sims_bind; [apply sims_tokenize_use, IH; [exact Y|apply P]|]. intros [k [u|]] [k' [v|]] [T O]; cbn [fst snd] in *; try contradiction; [apply sims_ret; exact O|].
    eapply sims_bind; [apply sims_get_tok; exact T|]. intros w w' [<- _].
    eapply sims_bind; [apply sims_heap; intros; apply heaps_cell; assumption|]. intros _ _ _. apply sims_ret. exact I.
  - eapply (sims_bind a a' x eq).
    { apply sims_gets. intros s t (_ & _ & _ & _ & _ & (C & _) & _). unfold get_cell. rewrite C. reflexivity. }
    intros u _ <-. apply sims_eq; [apply sims_if_str|]. intros ok. eapply sims_bind; [apply sims_error_if|]. intros [y|] [z|] O; try contradiction; [apply sims_ret; exact O|].
    eapply sims_bind; [apply sims_heap; intros; apply heaps_cell; assumption|]. intros _ _ _. apply sims_ret. exact I.
  - apply sims_ret. intros St. destruct P. congruence.
  - apply sims_eq; [apply sims_if_str|]. intros ok. apply sims_error_if.
  - apply sims_bind_mark. intros p q M. eapply sims_bind; [apply sims_rep, IH; [exact Y|apply P]|]. intros _ _ _. apply sims_bind_mark. intros p' q' M'.
    replace (q <? q') with (p <? p') by (destruct M as (d & B & -> & ->), M' as (d' & B' & -> & ->); lia). apply sims_error_if.
  - eapply sims_bind; [apply sims_tokenize_use, IH; [exact Y|apply P]|]. intros [k [u|]] [k' [v|]] [T O]; cbn [fst snd] in *; try contradiction; [apply sims_ret; exact O|].
    eapply sims_bind; [apply sims_heap; intros h h' Hh; apply (heaps_event a a' x); [exact Y|exact T|exact Hh]|]. intros _ _ _. apply sims_ret. exact I.
  - apply sims_eq; [apply sims_if_match|]. intros ok. apply sims_error_if.
  - apply IH; [exact Y|apply P].
  - apply sims_bind_mark. intros p q M. eapply sims_bind; [apply IH; [exact Y|apply P]|]. intros u v O. apply sims_then; [apply sims_marker; auto|].
    destruct u, v; try contradiction; [|apply sims_error_for]. apply sims_then; [apply sims_move_runes; lia|apply sims_ret; exact I].
  - eapply sims_bind; [apply IH; [exact Y|apply P]|]. intros u v O. apply sims_ret. exact I.
  - apply sims_bind_mark. intros p q M. apply sims_eq; [apply sims_past, IH; [exact Y|apply P]|]. intros []; [apply sims_ret; exact I|].
    apply sims_then; [apply sims_marker; auto|apply sims_error_for].
  - apply sims_eq; [apply sims_if_rune|]. intros ok. apply sims_error_if.
  - apply sims_bind_mark. intros p q M. apply sims_seq; [apply IL, P|exact M].
  - apply sims_skip_seq; [apply IH; [exact Y|apply P]|apply IL, P].
  - apply sims_times, IH; [exact Y|apply P].
  - apply sims_bind_mark. intros p q M. apply sims_eq; [apply sims_to, IH; [exact Y|apply P]|]. intros []; [apply sims_ret; exact I|].
    apply sims_then; [apply sims_marker; auto|apply sims_error_for].
  - eapply sims_bind; [apply sims_read_uint, P|]. intros [u1 u2] [v1 v2] [<- O]. cbn [fst snd] in *.
    eapply sims_bind; [apply sims_heap; intros; apply heaps_val; assumption|]. intros _ _ _. apply sims_ret. exact O.
  - eapply (sims_bind a a' x (fun u v => Forall2 (marks a a' x) (fst u) (fst v) /\ oerrs a a' x (snd u) (snd v))).
    { apply sims_gets. intros s t (R1 & R2 & _ & _ & (d & B & -> & ->) & _). rewrite R1, R2. apply P, B. }
    intros u v [M O]. eapply sims_bind; [apply sims_moves, M|]. intros _ _ _. apply sims_ret. exact O.
  - eapply sims_bind; [apply sims_rep, IH; [exact Y|apply P]|]. intros _ _ _. apply sims_ret. exact I.
  - eapply sims_bind; [apply sims_tokenize_use, IH; [exact Y|apply P]|]. intros [k [u|]] [k' [v|]] [T O]; cbn [fst snd] in *; try contradiction; [apply sims_ret; exact O|].
    apply sims_pick; [exact T|]. apply sims_ret. exact I.
  - apply sims_bind_mark. intros p q M. pose proof M as (d & _ & M1 & M2).
    eapply (sims_bind a a' x (fun u v => bask = true -> u = v)).
    { apply sims_gets. intros s t (_ & _ & _ & _ & _ & (_ & _ & _ & _ & G) & R7) Hb. apply enter_alike; [destruct (R7 Hb) as (_ & HD & _); lia|apply G, Hb]. }
    intros k k' Hk. apply (sims_logs a a' x _ lg (fun l => snd (log_enter info p l)) (fun l => snd (log_enter info q l))).
    { intros Hb HD l l' A. apply enter_alike; [lia|exact A]. }
    eapply sims_bind; [apply IH; [exact Y|apply P]|]. intros u v O. apply sims_bind_mark. intros p' q' M'. pose proof M' as (d' & _ & M1' & M2').
    apply (sims_logs a a' x _ lg (log_exit k p' u) (log_exit k' q' v)); [|apply sims_ret; exact O].
    intros Hb HD l l' A. rewrite <- (Hk Hb). apply exit_alike; [lia| |exact A]. destruct u as [u|], v as [v|]; try contradiction; [|exact I].
    intros St. destruct (O St) as (p1 & q1 & w & -> & -> & (d1 & _ & N1 & N2)). exists p1, w. split; [reflexivity|]. f_equal. lia.
  - destruct (r_reader (get_rule e i)) as [sub|] eqn:Q; [|apply sims_panic]. apply IH; [exact Y|apply (He i sub Q)].
  - eapply sims_bind; [apply IH; [exact Y|apply P]|]. intros [u|] [v|] O; try contradiction; apply sims_error_if.
  - destruct (r_reader (get_rule e i)) as [sub|] eqn:Q; [|apply sims_panic]. eapply sims_bind; [apply IH; [exact Y|apply (He i sub Q)]|].
    intros [u|] [v|] O; try contradiction; apply sims_ret; [|exact I]. intros St. destruct P. congruence.
Qed.
End Readers.
End Shift.
