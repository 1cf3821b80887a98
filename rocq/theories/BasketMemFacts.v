(** BasketMemFacts.v - Baskets as lists and Baskets in memory. *)
From Verif Require Export BasketMem BasketFacts.
From Coq Require Import Lia ZifyBool.

(** The same on lists (tracker.go:36-49 as in Reader.v and State.v). *)
Definition list_op (o : bop) (l : list segment) : list segment := match o with OAdd g => l ++ [g] | OUpdate mk => basket_update mk l end.
Definition list_run (os : list bop) (l : list segment) : list segment := fold_left (fun l o => list_op o l) os l.

Definition array (m : bmem) (p : sref) : list segment := nth (sl_arr p) (m_arrs m) [].
(** A slice that was handed out: its elements are there. *)
Definition ref_ok (m : bmem) (p : sref) : Prop := (sl_len p <= length (array m p))%nat /\ (sl_arr p < length (m_arrs m) \/ sl_len p = 0)%nat.
Definition mem_ok (m : bmem) : Prop := let p := m_segs m in
  ref_ok m p /\ (sl_len p <= sl_cap p)%nat /\ (sl_arr p < length (m_arrs m) \/ sl_cap p = 0)%nat.

Lemma poke_len arr i g : (i <= length arr)%nat -> length (poke arr i g) = Nat.max (S i) (length arr).
Proof. intros H. unfold poke. rewrite app_length, firstn_length. cbn [length]. rewrite skipn_length. lia. Qed.
Lemma poke_firstn arr i g n : (n <= i)%nat -> (i <= length arr)%nat -> firstn n (poke arr i g) = firstn n arr.
Proof.
  intros H K. unfold poke. rewrite firstn_app, firstn_firstn, firstn_length. replace (n - Nat.min i (length arr))%nat with 0%nat by lia.
  cbn [firstn]. rewrite app_nil_r. f_equal. lia.
Qed.
Lemma poke_snoc arr i g : (i <= length arr)%nat -> firstn (S i) (poke arr i g) = firstn i arr ++ [g].
Proof.
  intros H. unfold poke. rewrite firstn_app, firstn_firstn, firstn_length. replace (S i - Nat.min i (length arr))%nat with 1%nat by lia.
  replace (Nat.min (S i) i) with i by lia. reflexivity.
Qed.
Lemma nth_put {A} (d : A) l i x j : nth j (put d l i x) d = if Nat.eqb i j then x else nth j l d.
Proof. exact (get_put d l i j x). Qed.
Lemma put_len {A} (d : A) i x : forall l, (i < length l)%nat -> length (put d l i x) = length l.
Proof. induction i as [|i IH]; intros [|y l] H; cbn in *; try lia. rewrite IH; lia. Qed.
Lemma nth_new (l : list (list segment)) x j : (j < length l)%nat -> nth j (l ++ [x]) [] = nth j l [].
Proof. intros H. apply app_nth1. auto. Qed.
Lemma nth_last (l : list (list segment)) x : nth (length l) (l ++ [x]) [] = x.
Proof. rewrite app_nth2, Nat.sub_diag by lia. reflexivity. Qed.

Lemma keep_le mk l : forall i k, keep mk l i = Some k -> (0 < k <= i)%nat.
Proof.
  induction i as [|i IH]; intros k; cbn [keep]; [discriminate|]. destruct (nth_error l i) as [g|]; [|discriminate]. destruct (_ <=? _); intros E; [injection E as <-; lia|].
  apply IH in E. lia.
Qed.
Lemma keep_update mk l : match keep mk l (length l) with Some k => basket_update mk l = firstn k l | None => basket_update mk l = [] end.
Proof.
  assert (G : forall r l, match keep mk (l ++ r) (length l) with Some k => basket_update mk l = firstn k l | None => basket_update mk l = [] end).
  { clear. intros r l. revert r. induction l as [|g l IH] using rev_ind; intros r; [reflexivity|]. rewrite app_length, Nat.add_comm. cbn [Nat.add keep length].
    rewrite <- app_assoc. cbn [app]. rewrite nth_error_app2, Nat.sub_diag by lia. cbn [nth_error]. rewrite update_snoc. unfold ends_by. destruct (t_to (s_tok g) <=? mk) eqn:Q.
    - rewrite firstn_all2; [reflexivity|rewrite app_length; cbn; lia].
    - specialize (IH (g :: r)). destruct (keep mk (l ++ g :: r) (length l)) as [k|] eqn:E; [|exact IH]. apply keep_le in E. rewrite IH, firstn_app. replace (k - length l)%nat with 0%nat by lia.
      cbn [firstn]. rewrite app_nil_r. reflexivity. }
  specialize (G [] l). rewrite app_nil_r in G. exact G.
Qed.

Lemma other_basket b b' l h : b' <> b -> get_basket b (put_basket b' l h) = get_basket b h.
Proof. intros N. unfold get_basket, put_basket. cbn [h_baskets]. apply get_put_other. auto. Qed.

Section Mem.
Context {L : GoLib}.

Lemma view_len m p : ref_ok m p -> length (view m p) = sl_len p.
Proof. intros [H _]. unfold view. rewrite firstn_length. unfold array in H. lia. Qed.
(** The Basket behaves as a list. *)
Lemma op_list o m : mem_ok m -> mem_ok (mem_op o m) /\ view (mem_op o m) (m_segs (mem_op o m)) = list_op o (view m (m_segs m)).
Proof.
  intros ((R & Ra) & C & A). destruct o as [g|mk]; cbn [mem_op list_op].
  - unfold mem_add. destruct (Nat.ltb _ _) eqn:Q.
    + apply Nat.ltb_lt in Q. assert (A' : (sl_arr (m_segs m) < length (m_arrs m))%nat) by lia. unfold mem_ok, ref_ok, view, array. cbn [m_segs m_arrs sl_arr sl_len sl_cap].
      rewrite nth_put, Nat.eqb_refl, put_len by auto. fold (array m (m_segs m)). rewrite poke_len by auto. split; [split; [split; lia|lia]|]. apply poke_snoc. auto.
    + apply Nat.ltb_ge in Q. pose proof (view_len m (m_segs m) (conj R Ra)) as V. set (v := view m (m_segs m)) in *. unfold mem_ok, ref_ok, array, view.
      cbn [m_segs m_arrs sl_arr sl_len sl_cap]. rewrite nth_last, !app_length. cbn [length]. split; [split; [split; lia|lia]|]. rewrite firstn_all2; [reflexivity|rewrite app_length; cbn; lia].
  - unfold mem_update. pose proof (view_len m (m_segs m) (conj R Ra)) as V. pose proof (keep_update mk (view m (m_segs m))) as K. rewrite V in K.
    destruct (keep mk (view m (m_segs m)) (sl_len (m_segs m))) as [k|] eqn:E.
    + apply keep_le in E. rewrite K. unfold mem_ok, ref_ok, array, view in *. cbn [m_segs m_arrs sl_arr sl_len sl_cap]. split; [split; [split; lia|lia]|].
      rewrite firstn_firstn. f_equal. lia.
    + rewrite K. unfold mem_ok, ref_ok, array, view. cbn [m_segs m_arrs sl_arr sl_len sl_cap]. rewrite app_length. cbn [length firstn]. split; [split; [split; lia|lia]|]. reflexivity.
Qed.
Lemma run_list os : forall m, mem_ok m -> mem_ok (mem_run os m) /\ view (mem_run os m) (m_segs (mem_run os m)) = list_run os (view m (m_segs m)).
Proof.
  induction os as [|o os IH]; intros m M; [split; auto|]. destruct (op_list o m M) as [M1 V1]. cbn [mem_run list_run fold_left]. rewrite <- V1. apply IH. auto.
Qed.

(** What a slice that was handed out still shows: the elements below the length of the Basket stay. *)
Definition away (m : bmem) (p : sref) : Prop := sl_arr p <> sl_arr (m_segs m).
Lemma arrs_grow o m : mem_ok m -> (length (m_arrs m) <= length (m_arrs (mem_op o m)))%nat.
Proof.
  intros (_ & C & A). destruct o as [g|mk]; cbn [mem_op].
  - unfold mem_add. destruct (Nat.ltb _ _) eqn:Q; cbn [m_arrs]; [apply Nat.ltb_lt in Q; rewrite put_len; lia|rewrite app_length; lia].
  - unfold mem_update. destruct (keep _ _ _); cbn [m_arrs]; [lia|rewrite app_length; lia].
Qed.
Lemma op_view o m p k : mem_ok m -> ref_ok m p -> (k <= sl_len p)%nat -> away m p \/ (k <= sl_len (m_segs m))%nat -> firstn k (view (mem_op o m) p) = firstn k (view m p).
Proof.
  intros ((R & Ra) & C & A) (P & Pa) K D. destruct Pa as [Pa|Pa]; [|replace k with 0%nat by lia; reflexivity]. unfold view. rewrite !firstn_firstn. replace (Nat.min k (sl_len p)) with k by lia.
  destruct o as [g|mk]; cbn [mem_op].
  - unfold mem_add. destruct (Nat.ltb _ _) eqn:Q; cbn [m_arrs].
    + apply Nat.ltb_lt in Q. rewrite nth_put. destruct (Nat.eqb_spec (sl_arr (m_segs m)) (sl_arr p)) as [E|E]; [|reflexivity]. destruct D as [D|D]; [elim D; auto|].
      rewrite <- E. apply poke_firstn; auto.
    + rewrite nth_new by auto. reflexivity.
  - unfold mem_update. destruct (keep _ _ _); cbn [m_arrs]; [reflexivity|rewrite nth_new by auto; reflexivity].
Qed.
Lemma op_ref o m p : mem_ok m -> ref_ok m p -> ref_ok (mem_op o m) p.
Proof.
  intros M (P & Pa). pose proof (arrs_grow o m M) as G. split; [|lia]. destruct Pa as [Pa|Pa]; [|lia]. destruct M as ((R & Ra) & C & A). unfold array in *. destruct o as [g|mk]; cbn [mem_op].
  - unfold mem_add. destruct (Nat.ltb _ _) eqn:Q; cbn [m_arrs].
    + apply Nat.ltb_lt in Q. rewrite nth_put. destruct (Nat.eqb_spec (sl_arr (m_segs m)) (sl_arr p)) as [E|E]; [|exact P]. rewrite poke_len by auto. rewrite E. lia.
    + rewrite nth_new by auto. exact P.
  - unfold mem_update. destruct (keep _ _ _); cbn [m_arrs]; [exact P|rewrite nth_new by auto; exact P].
Qed.
Lemma op_away o m p : mem_ok m -> (sl_arr p < length (m_arrs m))%nat -> away m p -> away (mem_op o m) p.
Proof.
  intros _ Pa D. unfold away in *. destruct o as [g|mk]; cbn [mem_op].
  - unfold mem_add. destruct (Nat.ltb _ _); cbn [m_segs sl_arr]; [exact D|lia].
  - unfold mem_update. destruct (keep _ _ _); cbn [m_segs sl_arr]; [exact D|lia].
Qed.
Lemma run_ref os : forall m p, mem_ok m -> ref_ok m p -> ref_ok (mem_run os m) p.
Proof. induction os as [|o os IH]; intros m p M P; [auto|]. cbn [mem_run fold_left]. apply IH; [apply op_list; auto|apply op_ref; auto]. Qed.
Lemma run_view os : forall m p k, mem_ok m -> ref_ok m p -> (k <= sl_len p)%nat ->
  (forall os1 os2, os = os1 ++ os2 -> (k <= length (list_run os1 (view m (m_segs m))))%nat) -> firstn k (view (mem_run os m) p) = firstn k (view m p).
Proof.
  induction os as [|o os IH]; intros m p k M P K H; [reflexivity|]. cbn [mem_run fold_left]. destruct (op_list o m M) as [M1 V1]. change (firstn k (view (mem_run os (mem_op o m)) p) = firstn k (view m p)).
  rewrite IH; auto.
  - apply op_view; auto. right. rewrite <- (view_len m (m_segs m)) by apply M. apply (H [] (o :: os)). reflexivity.
  - apply op_ref; auto.
  - intros os1 os2 ->. rewrite V1. exact (H (o :: os1) os2 eq_refl).
Qed.
Lemma run_away os : forall m p, mem_ok m -> ref_ok m p -> (sl_arr p < length (m_arrs m))%nat -> away m p -> view (mem_run os m) p = view m p.
Proof.
  induction os as [|o os IH]; intros m p M P Pa D; [reflexivity|]. cbn [mem_run fold_left]. destruct (op_list o m M) as [M1 V1]. change (view (mem_run os (mem_op o m)) p = view m p).
  rewrite IH; auto.
  - pose proof (op_view o m p (sl_len p) M P (Nat.le_refl _) (or_introl D)) as X. unfold view in X |- *. rewrite !firstn_firstn, Nat.min_id in X. exact X.
  - apply op_ref; auto.
  - pose proof (arrs_grow o m M). lia.
  - apply op_away; auto.
Qed.

(** A read acts on a Basket through Add and Update; where it is the Tracker, Update comes with markers that are not
    before the start. *)
Section Read.
Context (e : env) (b : nat) (A : Z) (l0 : list segment).
Definition behind_start (o : bop) : Prop := match o with OAdd _ => True | OUpdate mk => A <= mk end.
Definition Jo (a : Z) (s : st) : Prop := (trk (sc s) = Some b -> A <= a) /\ exists os, Forall behind_start os /\ get_basket b (hp s) = list_run os l0.
Lemma list_run_snoc os o l : list_run (os ++ [o]) l = list_op o (list_run os l).
Proof. unfold list_run. rewrite fold_left_app. reflexivity. Qed.
Lemma fw_ops n : (eallP (fun r => no_wrap r = true) e) -> forall t k a0 a r, rallP (fun r => no_wrap r = true) r -> fw true Jo t k a0 a (read n e r).
Proof.
  intros He. apply (fw_readP e (fun r => no_wrap r = true) true Jo); auto; try (intros; discriminate).
  - (* a move *) intros a s q I P (T & os & F & E) Q. split; [exact T|]. unfold moveto, track. cbn [hp]. destruct (trk (sc s)) as [b'|] eqn:Et; [|exists os; auto].
    destruct (Nat.eq_dec b' b) as [->|N].
    + exists (os ++ [OUpdate q]). rewrite list_run_snoc, get_put_basket, E. split; [|reflexivity]. apply Forall_app. split; auto. repeat constructor. cbn. specialize (T eq_refl). lia.
    + exists os. split; auto. rewrite other_basket; auto.
  - intros a s h Hb _ (T & os & F & E). split; [exact T|]. exists os. split; auto. cbn [with_heap hp]. unfold get_basket in *. rewrite Hb. exact E.
  - intros a s I P (T & X). split; [|exact X]. intros Et. specialize (T Et). lia.
  - intros info b' sub _ a m s I M M0 (T & os & F & E) _ _. split; [exact T|]. cbn [with_heap hp]. unfold basket_add. destruct (Nat.eq_dec b' b) as [->|N].
    + exists (os ++ [OAdd (mkSeg info (mkTok m (pos (sc s))))]). rewrite list_run_snoc, get_put_basket, E. split; [|reflexivity]. apply Forall_app. split; auto. repeat constructor.
    + exists os. split; auto. rewrite other_basket; auto.
  - intros m r1 r2 _ Hr IH a1 str s Hs (T & X). specialize (IH str None 0 0 r1 Hr (mkSt (new_scanner str) (hp s))).
    assert (I0 : inv Jo str None 0 0 (mkSt (new_scanner str) (hp s))).
    { split; [split; [cbn; pose proof (slen_nonneg str); lia|exact Hs]|]. split; auto. split; auto. split; [cbn; lia|]. split; [discriminate|exact X]. }
    specialize (IH I0). destruct (read m e r1 _) as [[x s']| |]; auto. destruct IH as (B1 & B2 & B3 & B4 & B5). split; auto. split; auto. split; [exact T|apply B5].
Qed.
End Read.
Lemma read_ops e r s x s' b : eall no_wrap e -> rall no_wrap r = true -> in_text s -> reads e r s x s' ->
  exists os, Forall (behind_start (pos (sc s))) os /\ get_basket b (hp s') = list_run os (get_basket b (hp s)).
Proof.
  intros He Hr I [n R]. assert (X := fw_ops e b (pos (sc s)) (get_basket b (hp s)) n (proj1 (eallP_eall _ _) He) (full (sc s)) (trk (sc s)) (pos (sc s)) (pos (sc s)) r (proj1 (rallP_rall _ _) Hr) s).
  rewrite R in X. destruct X as (_ & _ & _ & _ & _ & os & F & E); [|exists os; auto].
  split; auto. split; auto. split; auto. split; [lia|]. split; [lia|]. exists []. split; auto.
Qed.
End Mem.
(** What ends in time protects what stands before it. *)
Lemma run_prefix A os l : (forall l1 g, l = l1 ++ [g] -> t_to (s_tok g) <= A) -> Forall (behind_start A) os -> exists new, list_run os l = l ++ new.
Proof.
  intros H. induction os as [|o os IH] using rev_ind; intros F; [exists []; symmetry; apply app_nil_r|]. apply Forall_app in F as [F O]. inversion O as [|? ? O1 _]; subst.
  destruct (IH F) as [new E]. rewrite list_run_snoc, E. destruct o as [g|mk]; cbn [list_op] in *; [exists (new ++ [g]); rewrite app_assoc; reflexivity|]. cbn in O1. clear -H O1.
  induction new as [|g new IH] using rev_ind.
  - exists []. rewrite !app_nil_r. destruct l as [|g l _] using rev_ind; [reflexivity|]. rewrite update_snoc. specialize (H l g eq_refl). unfold ends_by. replace (_ <=? _) with true by lia. reflexivity.
  - rewrite app_assoc, update_snoc. destruct (ends_by mk g); [exists (new ++ [g]); rewrite app_assoc; reflexivity|exact IH].
Qed.
