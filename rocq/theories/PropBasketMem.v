(** PropBasketMem.v - C131 to C133: the slice that Basket.Picked() returns. *)
From Verif Require Import BasketMemFacts PropBasket UseFacts PropSegment Tests.
From Coq Require Import Lia ZifyBool Sorted Permutation.

(* ------------------------------------------------------------------- C131 *)

(** The Baskets one can get: what Add and Update make of a new one. *)
Inductive basket_mem {L : GoLib} : bmem -> Prop := basket_mem_run os : basket_mem (mem_run os mem0).
Lemma basket_mem_ok {L : GoLib} m : basket_mem m -> mem_ok m.
Proof. intros [os]. apply run_list. repeat split; cbn; auto. Qed.
Lemma picked_ok {L : GoLib} m : mem_ok m -> ref_ok m (mem_picked m).
Proof. intros M. apply M. Qed.

(** C131 is false as stated: Picked() does not hand out a copy. *)
Definition sgA : segment := mkSeg (lit "a") (mkTok 0 1).
Definition sgB : segment := mkSeg (lit "b") (mkTok 1 2).
Definition sgC : segment := mkSeg (lit "c") (mkTok 1 3).

Lemma poke_mid l x r t y : poke ((l ++ x :: r) ++ t) (length l) y = (l ++ y :: r) ++ t.
Proof.
  unfold poke. rewrite <- !app_assoc. cbn [app]. rewrite firstn_app, firstn_all, Nat.sub_diag. cbn [firstn]. rewrite app_nil_r. f_equal. f_equal.
  rewrite skipn_app, (skipn_all2 l) by lia. replace (S (length l) - length l)%nat with 1%nat by lia. reflexivity.
Qed.
(** Whenever a part, but not all, of what Picked() returned is taken back, the next Add writes into the slice, however append grows. *)
Theorem C131_overwritten_exact {L : GoLib} m l x r mk y : mem_ok m -> view m (m_segs m) = l ++ x :: r -> l <> [] -> basket_update mk (l ++ x :: r) = l ->
  let m' := mem_run [OUpdate mk; OAdd y] m in
  view m' (m_segs m') = l ++ [y] /\ view m' (mem_picked m) = l ++ y :: r.
Proof.
  intros M V N U. cbv zeta. split; [destruct (run_list [OUpdate mk; OAdd y] m M) as [_ E]; rewrite E, V; cbn; rewrite U; reflexivity|].
  pose proof (view_len m (m_segs m) (proj1 M)) as Len. pose proof (keep_update mk (view m (m_segs m))) as K. rewrite Len in K.
  cbn [mem_run fold_left mem_op]. unfold mem_update. destruct (keep mk (view m (m_segs m)) (sl_len (m_segs m))) as [k|] eqn:E.
  2:{ rewrite V, U in K. contradiction. }
  rewrite V, U in K. rewrite V, app_length in Len. cbn [length] in Len. assert (k = length l).
  { apply (f_equal (@length segment)) in K. rewrite firstn_length, app_length in K. cbn [length] in K. apply keep_le in E. destruct (Nat.le_gt_cases k (length l + S (length r))); lia. }
  subst k. unfold mem_add. cbn [m_segs m_arrs sl_arr sl_len sl_cap]. destruct M as ((R & Ra) & C & A). replace (Nat.ltb _ _) with true by (symmetry; apply Nat.ltb_lt; lia).
  unfold view, mem_picked in *. cbn [m_segs m_arrs sl_arr sl_len sl_cap]. rewrite nth_put, Nat.eqb_refl. unfold array in *. set (arr := nth (sl_arr (m_segs m)) (m_arrs m) []) in *.
  assert (P : poke arr (length l) y = (l ++ y :: r) ++ skipn (sl_len (m_segs m)) arr).
  { rewrite <- (firstn_skipn (sl_len (m_segs m)) arr) at 1. rewrite V. apply poke_mid. }
  rewrite P, firstn_app, firstn_all2 by (rewrite app_length; cbn; lia). rewrite app_length. cbn [length]. replace (_ - _)%nat with 0%nat by lia. cbn [firstn]. apply app_nil_r.
Qed.
Print Assumptions C131_overwritten_exact.

Theorem C131_copy_refuted {L : GoLib} : ~ (forall m os, basket_mem m -> view (mem_run os m) (mem_picked m) = view m (mem_picked m)).
Proof.
  intros H. pose (m := mem_run [OAdd sgA; OAdd sgB] mem0). assert (B : basket_mem m) by constructor. specialize (H m [OUpdate 1; OAdd sgC] B).
  assert (V : view m (m_segs m) = [sgA] ++ sgB :: []) by exact (proj2 (run_list [OAdd sgA; OAdd sgB] mem0 ltac:(repeat split; cbn; auto))).
  destruct (C131_overwritten_exact m [sgA] sgB [] 1 sgC (basket_mem_ok m B) V ltac:(discriminate) eq_refl) as [_ E]. rewrite E in H. unfold mem_picked in H. rewrite V in H. discriminate.
Qed.
Print Assumptions C131_copy_refuted.

(** What stays: as many elements as the Basket never loses ... *)
Theorem C131_low_water_exact {L : GoLib} m os k : mem_ok m -> (forall os1 os2, os = os1 ++ os2 -> (k <= length (list_run os1 (view m (m_segs m))))%nat) ->
  firstn k (view (mem_run os m) (mem_picked m)) = firstn k (view m (mem_picked m)).
Proof.
  intros M H. apply run_view; auto; [apply picked_ok; auto|]. unfold mem_picked. rewrite <- (view_len m (m_segs m)) by apply M. apply (H [] os). reflexivity.
Qed.
Print Assumptions C131_low_water_exact.
(** ... and everything, once the Basket was emptied by Update or has moved to a larger array. *)
Theorem C131_detached_exact {L : GoLib} m o os : mem_ok m -> view m (m_segs m) <> [] ->
  match o with OAdd _ => sl_cap (m_segs m) = sl_len (m_segs m) | OUpdate mk => basket_update mk (view m (m_segs m)) = [] end ->
  view (mem_run (o :: os) m) (mem_picked m) = view m (mem_picked m).
Proof.
  intros M N H. destruct (op_list o m M) as [M1 _]. assert (Pa : (sl_arr (m_segs m) < length (m_arrs m))%nat).
  { destruct M as ((_ & [Ra|Ra]) & _); auto. elim N. unfold view. rewrite Ra. reflexivity. }
  assert (W : view (mem_op o m) (mem_picked m) = view m (mem_picked m)).
  { pose proof (op_view o m (mem_picked m) (sl_len (m_segs m)) M (picked_ok m M) (Nat.le_refl _) (or_intror (Nat.le_refl _))) as X. unfold view, mem_picked in *. rewrite !firstn_firstn, Nat.min_id in X. exact X. }
  rewrite <- W. change (mem_run (o :: os) m) with (mem_run os (mem_op o m)). apply run_away; auto.
  - apply op_ref; auto. apply picked_ok; auto.
  - pose proof (arrs_grow o m M). unfold mem_picked. lia.
  - unfold away, mem_picked. destruct o as [g|mk]; cbn [mem_op].
    + unfold mem_add. rewrite H, Nat.ltb_irrefl. cbn. lia.
    + unfold mem_update. pose proof (keep_update mk (view m (m_segs m))) as K. rewrite (view_len m (m_segs m)) in K by apply M. pose proof (keep_le mk (view m (m_segs m)) (sl_len (m_segs m))) as P.
      destruct (keep mk _ _) as [k|]; [|cbn; lia]. rewrite H in K. specialize (P k eq_refl). symmetry in K. destruct k as [|k]; [lia|]. destruct (view m (m_segs m)); [elim N; auto|discriminate].
Qed.
Print Assumptions C131_detached_exact.
(** All of this for the Basket as the lists of C51 to C55. *)
Theorem C131_as_lists_exact {L : GoLib} os : let m := mem_run os mem0 in view m (mem_picked m) = list_run os [].
Proof. cbv zeta. exact (proj2 (run_list os mem0 ltac:(repeat split; cbn; auto))). Qed.
Print Assumptions C131_as_lists_exact.
Example C131_here : let m := mem_run (L := testlib) [OAdd sgA; OAdd sgB] mem0 in view m (mem_picked m) = [sgA; sgB] /\
  view (mem_run (L := testlib) [OUpdate 1; OAdd sgC] m) (mem_picked m) = [sgA; sgC] /\ view (mem_run (L := testlib) [OUpdate 0; OAdd sgC] m) (mem_picked m) = [sgA; sgB].
Proof. repeat split. Qed.

(* ------------------------------------------------------------------- C132 *)

(** Calls of Add, and of Update with markers from A on, leave the slice as it is, if its last Segment ends by A. *)
Theorem C132_calls_keep {L : GoLib} A m os : mem_ok m -> (forall l g, view m (mem_picked m) = l ++ [g] -> t_to (s_tok g) <= A) ->
  (forall mk, In (OUpdate mk) os -> A <= mk) -> view (mem_run os m) (mem_picked m) = view m (mem_picked m).
Proof.
  intros M H G. unfold mem_picked in *. assert (F : Forall (behind_start A) os) by (apply Forall_forall; intros [g|mk] X; cbn; auto).
  assert (W : firstn (sl_len (m_segs m)) (view (mem_run os m) (m_segs m)) = firstn (sl_len (m_segs m)) (view m (m_segs m))).
  { apply run_view; auto; [apply M|]. intros os1 os2 ->. apply Forall_app in F as [F1 _]. destruct (run_prefix _ os1 _ H F1) as [n1 ->]. rewrite app_length, (view_len m) by apply M. lia. }
  unfold view in *. rewrite !firstn_firstn, Nat.min_id in W. exact W.
Qed.
Print Assumptions C132_calls_keep.
(** A Use, whatever it does and whether it fails, comes down to such calls, with its start for A. *)
Theorem C132_use_keeps {L : GoLib} e r s x s' b : eall no_wrap e -> rall no_wrap r = true -> in_text s -> uses e r s x s' ->
  (forall l g, get_basket b (hp s) = l ++ [g] -> t_to (s_tok g) <= pos (sc s)) ->
  exists os, (forall mk, In (OUpdate mk) os -> pos (sc s) <= mk) /\ (exists new, get_basket b (hp s') = get_basket b (hp s) ++ new) /\
    forall m, mem_ok m -> view m (mem_picked m) = get_basket b (hp s) ->
      let m' := mem_run os m in view m' (mem_picked m') = get_basket b (hp s') /\ view m' (mem_picked m) = get_basket b (hp s).
Proof.
  intros He Hr I U H. apply uses_reads in U as (s1 & R & Es'); [|apply I]. destruct (read_ops e r s x s1 b He Hr I R) as (os1 & F1 & E1).
  assert (X : exists os, Forall (behind_start (pos (sc s))) os /\ get_basket b (hp s') = list_run os (get_basket b (hp s))).
  { destruct x as [y|]; subst s'; [|eauto]. unfold moveto, track. cbn [hp]. destruct (trk (sc s1)) as [b'|]; [|eauto]. destruct (Nat.eq_dec b' b) as [->|N].
    - exists (os1 ++ [OUpdate (pos (sc s))]). rewrite list_run_snoc, get_put_basket, E1. split; [|reflexivity]. apply Forall_app. split; auto. repeat constructor. cbn. lia.
    - exists os1. rewrite other_basket; auto. }
  clear -X H. destruct X as (os & F & E). assert (G : forall mk, In (OUpdate mk) os -> pos (sc s) <= mk) by (intros mk K; exact (proj1 (Forall_forall _ _) F _ K)).
  exists os. split; [exact G|]. split; [rewrite E; eapply run_prefix; eauto|]. intros m M V. cbv zeta. split; [rewrite E; unfold mem_picked in *; rewrite (proj2 (run_list os m M)), V; reflexivity|].
  rewrite <- V. apply (C132_calls_keep (pos (sc s))); auto. rewrite V. exact H.
Qed.
Print Assumptions C132_use_keeps.
(** Here pairs (PropBasket.v) picks four segments behind [sgA] and takes one of them back; the slice stays. *)
Example C132_here {L : GoLib} : rall no_wrap pairs = true /\ in_text (mkb (lit "xabaa") 1 [sgA]) /\
  exists s', uses [] pairs (mkb (lit "xabaa") 1 [sgA]) None s' /\ get_basket 0 (hp s') = [sgA; mkSeg (lit "a") (mkTok 1 2); mkSeg (lit "b") (mkTok 2 3); mkSeg (lit "p") (mkTok 1 3)].
Proof. split; [reflexivity|]. split; [split; vm_compute; intuition discriminate|]. eexists. split; [run 20%nat|reflexivity]. Qed.
(** What the hypothesis on A excludes. *)
Example C132_needed : let m := mem_run (L := testlib) [OAdd sgA; OAdd sgB] mem0 in view (mem_run (L := testlib) [OUpdate 1; OAdd sgC] m) (mem_picked m) <> view m (mem_picked m).
Proof. discriminate. Qed.

(* ------------------------------------------------------------------- C133 *)

Lemma put_len_ge {A} (d : A) i x : forall l, (length l <= length (put d l i x))%nat.
Proof. induction i as [|i IH]; intros [|y l]; cbn; try lia. specialize (IH l). lia. Qed.
(** SortSegments(basket.Picked()) sorts the Basket. *)
Theorem C133_sorts_basket_exact {L : GoLib} m : mem_ok m -> let m' := mem_sort (mem_picked m) m in view m' (mem_picked m') = sort_segments (view m (mem_picked m)) /\ mem_ok m'.
Proof.
  intros M. cbv zeta. pose proof (view_len m (m_segs m) (proj1 M)) as V. pose proof (Permutation_length (C29_sort_segments_permutes (view m (m_segs m)))) as P.
  destruct M as ((R & Ra) & C & A). unfold mem_sort, mem_picked, mem_ok, ref_ok, array in *. set (v := view m (m_segs m)) in *. unfold view. cbn [m_segs m_arrs].
  rewrite nth_put, Nat.eqb_refl. split; [rewrite firstn_app, firstn_all2 by lia; replace (_ - _)%nat with 0%nat by lia; cbn [firstn]; apply app_nil_r|].
  rewrite app_length, skipn_length. pose proof (put_len_ge [] (sl_arr (m_segs m)) (sort_segments v ++ skipn (sl_len (m_segs m)) (nth (sl_arr (m_segs m)) (m_arrs m) [])) (m_arrs m)). split; [split|split]; lia.
Qed.
Print Assumptions C133_sorts_basket_exact.

Lemma update_in mk g l : In g (basket_update mk l) <-> exists l1 l2, l = l1 ++ g :: l2 /\ exists h, In h (g :: l2) /\ ends_by mk h = true.
Proof.
  induction l as [|x l IH] using rev_ind; [split; [intros []|intros (l1 & l2 & E & _); destruct l1; discriminate]|]. rewrite update_snoc. destruct (ends_by mk x) eqn:Q.
  - split.
    + intros G. apply in_split in G as (l1 & l2 & E). exists l1, l2. split; auto. exists x. split; auto. destruct l2 as [|y l2 _] using rev_ind.
      * apply app_inj_tail in E as [_ ->]. left. auto.
      * rewrite app_comm_cons, app_assoc in E. apply app_inj_tail in E as [_ ->]. right. apply in_app_iff. right. left. auto.
    + intros (l1 & l2 & -> & _). apply in_app_iff. right. left. auto.
  - rewrite IH. split.
    + intros (l1 & l2 & -> & h & H & E). exists l1, (l2 ++ [x]). split; [rewrite <- app_assoc; reflexivity|]. exists h. split; auto. rewrite app_comm_cons. apply in_app_iff. auto.
    + intros (l1 & l2 & E & h & H & Eh). destruct l2 as [|y l2 _] using rev_ind.
      * apply app_inj_tail in E as [_ ->]. destruct H as [->|[]]. congruence.
      * rewrite app_comm_cons, app_assoc in E. apply app_inj_tail in E as [-> ->]. exists l1, l2. split; auto. exists h. split; auto. rewrite app_comm_cons in H. apply in_app_iff in H as [H|[->|[]]]; auto. congruence.
Qed.
Lemma sorted_later {A} (R : A -> A -> Prop) l1 x l2 y : StronglySorted R (l1 ++ x :: l2) -> In y l2 -> R x y.
Proof.
  induction l1 as [|z l1 IH]; cbn; intros S Y; inversion S as [|? ? S1 F]; subst; [exact (proj1 (Forall_forall _ _) F y Y)|apply IH; auto].
Qed.
(** From then on Update(m) keeps a Segment, if it covers one that ends by m, also if it does not end by m itself. *)
Theorem C133_update_when_sorted_exact l mk g : laminar l ->
  (In g (basket_update mk (sort_segments l)) <-> In g l /\ exists h, In h l /\ tok_covers (s_tok g) (s_tok h) = true /\ t_to (s_tok h) <= mk).
Proof.
  intros La. pose proof (C29_sort_segments_covering_first l La) as S. pose proof (C29_sort_segments_permutes l) as P.
  assert (I : forall x, In x (sort_segments l) <-> In x l) by (intros x; split; apply Permutation_in; [auto|apply Permutation_sym; auto]).
  destruct La as [Ne _]. rewrite update_in. unfold ends_by. split.
  - intros (l1 & l2 & E & h & H & Eh). assert (G : In g l) by (apply I; rewrite E; apply in_app_iff; right; left; auto).
    assert (G' : In h l) by (apply I; rewrite E; apply in_app_iff; right; auto). split; auto. rewrite E in S. pose proof (Ne h G') as N. unfold nonempty in N.
    destruct H as [->|H]; [exists h; unfold tok_covers; repeat split; auto; lia|]. destruct (sorted_later _ _ _ _ _ S H) as [K|K].
    + exists h. repeat split; auto; lia.
    + exists g. unfold tok_before, tok_covers in *. repeat split; auto; lia.
  - intros (G & h & H & K & Eh). apply I in G. apply in_split in G as (l1 & l2 & E). exists l1, l2. split; auto.
    pose proof H as H'. apply I in H'. rewrite E in H', S. apply in_app_iff in H' as [H'|H'].
    + apply in_split in H' as (k1 & k2 & ->). rewrite <- app_assoc in S. cbn [app] in S. pose proof (Ne h H) as N. unfold nonempty in N. exists g. split; [left; auto|].
      destruct (sorted_later _ _ _ _ g S) as [Q|Q]; [apply in_app_iff; right; left; auto| |]; unfold tok_covers, tok_before in *; lia.
    + exists h. split; auto. lia.
Qed.
Print Assumptions C133_update_when_sorted_exact.

(** C133 is false as stated. *)
Definition inner : segment := mkSeg (lit "inner") (mkTok 1 2).
Definition outer : segment := mkSeg (lit "outer") (mkTok 0 3).
Theorem C133_sorting_is_harmless_refuted {L : GoLib} : ~ (forall m mk, basket_mem m -> laminar (view m (mem_picked m)) ->
  let m' := mem_update mk (mem_sort (mem_picked m) m) in Permutation (view m' (mem_picked m')) (view (mem_update mk m) (mem_picked (mem_update mk m)))).
Proof.
  intros H. pose (m := mem_run [OAdd inner; OAdd outer] mem0). assert (B : basket_mem m) by constructor. pose proof (basket_mem_ok m B) as M.
  assert (V : view m (mem_picked m) = [inner; outer]) by exact (proj2 (run_list [OAdd inner; OAdd outer] mem0 ltac:(repeat split; cbn; auto))).
  specialize (H m 2 B). rewrite V in H. specialize (H ltac:(laminar_here)). cbv zeta in H. destruct (C133_sorts_basket_exact m M) as [W M']. rewrite V in W. unfold mem_picked in *.
  pose proof (proj2 (op_list (OUpdate 2) _ M')) as X. pose proof (proj2 (op_list (OUpdate 2) _ M)) as Y. cbn [mem_op list_op] in X, Y. rewrite X, Y, V, W in H.
  apply Permutation_length in H. discriminate.
Qed.
Print Assumptions C133_sorting_is_harmless_refuted.
(** Nested Picks lead there. *)
Example C133_here {L : GoLib} : let r := RPick (lit "outer") 0 (RSeq [la; RPick (lit "inner") 0 lb; la]) in
  (exists s', uses [] r (mkb (lit "aba") 0 []) None s' /\ get_basket 0 (hp s') = [inner; outer]) /\ laminar [inner; outer] /\
  basket_update 2 [inner; outer] = [inner] /\ basket_update 2 (sort_segments [inner; outer]) = [outer; inner].
Proof. cbv zeta. split; [eexists; split; [run 20%nat|reflexivity]|]. split; [laminar_here|]. split; reflexivity. Qed.
