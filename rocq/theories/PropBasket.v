(** PropBasket.v - C51 to C55: Baskets and Map. *)
From Verif Require Import BasketFacts ExKit.
From Coq Require Import Lia ZifyBool Sorted.
From Verif Require Import ReaderSteps ReaderScan BasketFacts.

Definition la : reader := RRune 0x61.
Definition lb : reader := RRune 0x62.
Ltac run n := exists n; vm_compute; reflexivity.
(** Scanner.Use. *)
Definition uses {L : GoLib} (e : env) (r : reader) (s : st) (x : option err) (s' : st) : Prop := exists n, use (read n e r) s = Ok (x, s').
(** A scanner coupled with basket 0. *)
Definition mkb (t : bytes) (p : Z) (segs : list segment) : st := mkSt (mkSc t p (Some 0%nat)) (mkHeap [segs] [] [] [] []).
Definition any_reader (_ : reader) : bool := true.

(* ------------------------------------------------------------------- C51 *)

(** C51.  [pickable b R any_reader]: no Wrap, and no Pick into [b] below Body/BodyTail, where
    [R] are the rules used there ([unpicked_rules]). *)
Theorem C51_picked_segments_are_consistent {L : GoLib} e r b R s x s' name :
  unpicked_rules b R e -> eall (pickable b R any_reader) e -> rall (pickable b R any_reader) r = true ->
  in_text s -> trk (sc s) = Some b -> get_basket b (hp s) = [] -> reads e r s x s' ->
  let segs := get_basket b (hp s') in
  StronglySorted (fun g h => t_to (s_tok g) <= t_to (s_tok h)) segs /\
  (forall g, In g segs -> pos (sc s) <= t_from (s_tok g) /\ t_from (s_tok g) <= t_to (s_tok g) /\ t_to (s_tok g) <= pos (sc s')) /\
  (forall g h, In g segs -> In h segs -> tok_clashes (s_tok g) (s_tok h) = false) /\
  (exists graph, build_graph name segs = Some graph /\ history name segs graph).
Proof.
  intros HR He Hr I T Fr Rd. destruct (picked e b R any_reader HR He r s x s' Hr I T) as (new & E & So & Fi & _); auto.
  { rewrite Fr. intros g []. } rewrite Fr in E. cbn in E. rewrite E. cbv zeta.
  assert (P : forall g, In g new -> pos (sc s) <= t_from (s_tok g) /\ t_from (s_tok g) <= t_to (s_tok g) /\ t_to (s_tok g) <= pos (sc s')).
  { intros g G. rewrite Forall_forall in Fi. destruct (Fi g G) as (A & B & C & _). auto. }
  assert (C : forall g h, In g new -> In h new -> tok_clashes (s_tok g) (s_tok h) = false).
  { assert (Cl : forall g h, In g new -> In h new -> older g h \/ older h g -> tok_clashes (s_tok g) (s_tok h) = false).
    { intros g h G H O. destruct (P g G) as (A1 & A2 & A3), (P h H) as (B1 & B2 & B3). unfold older, tok_clashes, tok_covers, tok_after, tok_before in *. lia. }
    clear - So Cl P. intros g h G H. apply Cl; auto. clear Cl.
    induction So as [|y l So IH F]; [destruct G|]. rewrite Forall_forall in F. destruct G as [->|G], H as [->|H]; auto.
    - left. right. lia.
    - apply IH; auto. intros; apply P; right; auto. }
  split; [eapply fits_end; eauto|]. split; auto. split; auto.
  destruct (append_all_history name new [] (new_graph name)) as (g & acc & Eg & H & _ & A).
  { constructor. } { intros g G. destruct (P g G). unfold ordered. lia. }
  exists g. split; auto. rewrite A in H; auto.
Qed.
Print Assumptions C51_picked_segments_are_consistent.

(** [history name segs graph] says that Append returned true for all of them. *)
Definition pairs : reader := RMany (RPick (lit "p") 0 (RSeq [RPick (lit "a") 0 la; RPick (lit "b") 0 lb])).
Example C51_case {L : GoLib} : rall (pickable 0 (fun _ => false) any_reader) pairs = true /\
  exists s', reads [] pairs (mkb (lit "xababa") 1 []) None s' /\
    get_basket 0 (hp s') = [mkSeg (lit "a") (mkTok 1 2); mkSeg (lit "b") (mkTok 2 3); mkSeg (lit "p") (mkTok 1 3);
                            mkSeg (lit "a") (mkTok 3 4); mkSeg (lit "b") (mkTok 4 5); mkSeg (lit "p") (mkTok 3 5)].
Proof. split; [reflexivity|]. eexists. split; [run 20%nat|reflexivity]. Qed.

(* ------------------------------------------------------------------- C52 *)

(** C52 is false as stated: an empty Segment picked at the start survives. *)
Theorem C52_failed_use_refuted {L : GoLib} :
  ~ (forall e r b R s x s', unpicked_rules b R e -> eall (pickable b R any_reader) e -> rall (pickable b R any_reader) r = true ->
     in_text s -> trk (sc s) = Some b -> get_basket b (hp s) = [] -> uses e r s (Some x) s' -> get_basket b (hp s') = []).
Proof.
  intros H. assert (U : exists x s', uses [] (RSeq [RPick (lit "p") 0 (ROpt la); lb]) (mkb (lit "c") 0 []) (Some x) s' /\ get_basket 0 (hp s') <> []).
  { eexists. eexists. split; [run 9%nat|]. vm_compute. discriminate. }
  destruct U as (x & s' & U & N). apply N.
  apply (H [] (RSeq [RPick (lit "p") 0 (ROpt la); lb]) 0%nat (fun _ => false) (mkb (lit "c") 0 []) x s'); auto.
  - intros i r E. discriminate.
  - intros i r E. destruct i; discriminate.
  - in_here.
Qed.
Print Assumptions C52_failed_use_refuted.

(** Exactly: what was there stays, what is added are empty Segments at the start. *)
Theorem C52_failed_use_exact {L : GoLib} e r b R s x s' :
  unpicked_rules b R e -> eall (pickable b R any_reader) e -> rall (pickable b R any_reader) r = true ->
  in_text s -> trk (sc s) = Some b -> (forall g, In g (get_basket b (hp s)) -> t_to (s_tok g) <= pos (sc s)) ->
  uses e r s (Some x) s' ->
  pos (sc s') = pos (sc s) /\
  exists new, get_basket b (hp s') = get_basket b (hp s) ++ new /\ forall g, In g new -> s_tok g = mkTok (pos (sc s)) (pos (sc s)).
Proof.
  intros HR He Hr I T O [n U]. unfold use in U. apply bind_inv in U as (m & s0 & U1 & U). injection U1 as <- <-.
  apply bind_inv in U as (y & s1 & U1 & U). destruct y as [y|]; [|discriminate].
  apply bind_inv in U as (z & s2 & U2 & U). injection U as <- <-. rewrite to_marker_nonneg in U2 by (destruct I; lia). injection U2 as _ <-.
  destruct (picked e b R any_reader HR He r s (Some y) s1 Hr I T O (ex_intro _ n U1)) as (new & E & So & Fi & _).
  destruct (read_keeps e n r s _ _ U1) as [_ K]. split; [reflexivity|].
  exists (filter (ends_by (pos (sc s))) new). split.
  - unfold moveto, track. cbn [hp]. rewrite K, T, get_put_basket, E. apply update_app; auto. eapply fits_end; eauto.
  - intros g G. apply filter_In in G as [G Ge]. rewrite Forall_forall in Fi. destruct (Fi g G) as (A & B & C & _).
    destruct g as [i [f t]]. unfold ends_by in Ge. cbn in *. f_equal; lia.
Qed.
Print Assumptions C52_failed_use_exact.
(** So the Basket is unchanged whenever no empty Segment is left at the start. *)
Theorem C52_failed_use_partial {L : GoLib} e r b R s x s' :
  unpicked_rules b R e -> eall (pickable b R any_reader) e -> rall (pickable b R any_reader) r = true ->
  in_text s -> trk (sc s) = Some b -> (forall g, In g (get_basket b (hp s)) -> t_to (s_tok g) <= pos (sc s)) ->
  uses e r s (Some x) s' -> (forall g, In g (get_basket b (hp s')) -> nonempty (s_tok g)) ->
  get_basket b (hp s') = get_basket b (hp s).
Proof.
  intros HR He Hr I T O U N. destruct (C52_failed_use_exact e r b R s x s' HR He Hr I T O U) as (_ & new & E & A).
  destruct new as [|g new]; [rewrite app_nil_r in E; auto|]. exfalso.
  specialize (N g ltac:(rewrite E; apply in_or_app; right; left; auto)). rewrite (A g (or_introl eq_refl)) in N. unfold nonempty in N. cbn in N. lia.
Qed.
Print Assumptions C52_failed_use_partial.
(** Three Segments are picked and all are gone after the failure, the old one stays. *)
Example C52_case {L : GoLib} : exists x s', uses [] (RSeq [pairs; RAtEnd]) (mkb (lit "xabc") 1 [mkSeg (lit "x") (mkTok 0 1)]) (Some x) s' /\
  get_basket 0 (hp s') = [mkSeg (lit "x") (mkTok 0 1)].
Proof. eexists. eexists. split; [run 20%nat|reflexivity]. Qed.

(* ------------------------------------------------------------------- C53 *)

(** C53. *)
Theorem C53_update_forgets_what_ends_behind m l :
  StronglySorted (fun g h => t_to (s_tok g) <= t_to (s_tok h)) l ->
  basket_update m l = filter (fun g => t_to (s_tok g) <=? m) l.
Proof. apply update_filter. Qed.
Print Assumptions C53_update_forgets_what_ends_behind.
(** Not so for other Baskets: the last Segment that ends in time protects all before it. *)
Theorem C53_unordered_basket m l x k : t_to (s_tok x) <= m -> (forall g, In g k -> m < t_to (s_tok g)) ->
  basket_update m (l ++ [x] ++ k) = l ++ [x].
Proof.
  intros X K. induction k as [|g k IH] using rev_ind.
  - rewrite app_nil_r, update_snoc. unfold ends_by. replace (t_to (s_tok x) <=? m) with true by lia. auto.
  - rewrite !app_assoc, update_snoc. unfold ends_by. specialize (K g ltac:(apply in_or_app; right; left; auto)) as Kg.
    replace (t_to (s_tok g) <=? m) with false by lia. rewrite <- app_assoc. apply IH. intros h Hh. apply K, in_or_app. auto.
Qed.
Print Assumptions C53_unordered_basket.
Example C53_case : basket_update 3 [mkSeg (lit "a") (mkTok 0 1); mkSeg (lit "b") (mkTok 1 3); mkSeg (lit "c") (mkTok 0 3); mkSeg (lit "d") (mkTok 2 4)]
  = [mkSeg (lit "a") (mkTok 0 1); mkSeg (lit "b") (mkTok 1 3); mkSeg (lit "c") (mkTok 0 3)].
Proof. reflexivity. Qed.

(* ------------------------------------------------------------------- C54 *)

(** C54.  [q] is any property all readers of the graph have. Every new Segment belongs to
    a Pick of the graph whose sub reader read just that piece of the text. *)
Theorem C54_picked_positions_refer_to_text_partial {L : GoLib} e r b R q s x s' g :
  unpicked_rules b R e -> eall (pickable b R q) e -> rall (pickable b R q) r = true ->
  in_text s -> trk (sc s) = Some b -> (forall g, In g (get_basket b (hp s)) -> t_to (s_tok g) <= pos (sc s)) ->
  reads e r s x s' -> In g (get_basket b (hp s')) -> ~ In g (get_basket b (hp s)) ->
  exists info sub s1 s2, q (RPick info b sub) = true /\ reads e sub s1 None s2 /\ full (sc s1) = full (sc s) /\
    s_info g = info /\ s_tok g = mkTok (pos (sc s1)) (pos (sc s2)) /\
    get_tok (s_tok g) s' = Ok (slice (full (sc s)) (pos (sc s1)) (pos (sc s2)), s').
Proof.
  intros HR He Hr I T O Rd G N. destruct (picked e b R q HR He r s x s' Hr I T O Rd) as (new & E & So & Fi & Ca).
  rewrite E in G. apply in_app_or in G as [G|G]; [contradiction|]. rewrite Forall_forall in Ca, Fi.
  destruct (Ca g G) as (info & sub & s1 & s2 & Q & Rs & I1 & F1 & F2 & ->). exists info, sub, s1, s2.
  split; auto. split; auto. split; auto. split; auto. split; auto. destruct (reads_keeps e _ _ _ _ Rd) as [K _].
  destruct (Fi _ G) as (A & B & C & _). cbn in A, B, C. pose proof I as [I0 _].
  assert (P : pos (sc s') <= slen (full (sc s))).
  { destruct Rd as [n Rd]. destruct (read_okfw e (env_wrap e b R q He) n r (pickable_wrap b R q r Hr) s x s' I Rd) as ([P _] & _). rewrite K in P. lia. }
  unfold get_tok. cbn [s_tok t_from t_to]. rewrite K.
  match goal with |- (if ?c then _ else _) = _ => destruct c eqn:X end; [reflexivity|lia].
Qed.
Print Assumptions C54_picked_positions_refer_to_text_partial.

(** False with Picks below Body: there the positions count from the start of the body. *)
Definition picks_only (b : nat) (w : bytes) (r : reader) : bool :=
  match r with RPick _ b' (RLit w') => Nat.eqb b' b && bytes_eqb w' w | RPick _ _ _ => false | _ => true end.
Theorem C54_refuted {L : GoLib} :
  ~ (forall r b w s x s', rall no_wrap r = true -> rall (picks_only b w) r = true -> in_text s -> trk (sc s) = Some b ->
     get_basket b (hp s) = [] -> reads [] r s x s' -> forall g, In g (get_basket b (hp s')) -> get_tok (s_tok g) s' = Ok (w, s')).
Proof.
  intros H. set (r := RBody (RPick (lit "p") 0 (RLit (lit "a"))) (RLit (lit "b"))).
  assert (Rd : exists s', reads [] r (mkb (lit "xab") 1 []) None s' /\ get_basket 0 (hp s') = [mkSeg (lit "p") (mkTok 0 1)] /\ full (sc s') = lit "xab").
  { eexists. split; [run 9%nat|]. split; reflexivity. }
  destruct Rd as (s' & Rd & B & F).
  specialize (H r 0%nat (lit "a") (mkb (lit "xab") 1 []) None s' eq_refl eq_refl ltac:(in_here) eq_refl eq_refl Rd).
  rewrite B in H. specialize (H _ (or_introl eq_refl)). unfold get_tok in H. rewrite F in H. vm_compute in H. discriminate.
Qed.
Print Assumptions C54_refuted.
(** Without such Picks it is true. *)
Theorem C54_cut_out_literals {L : GoLib} r b w s x s' : rall (pickable b (fun _ => false) (picks_only b w)) r = true ->
  in_text s -> trk (sc s) = Some b -> get_basket b (hp s) = [] -> reads [] r s x s' ->
  forall g, In g (get_basket b (hp s')) -> get_tok (s_tok g) s' = Ok (w, s').
Proof.
  intros Hr I T Fr Rd g G.
  destruct (C54_picked_positions_refer_to_text_partial [] r b (fun _ => false) (picks_only b w) s x s' g) as (info & sub & s1 & s2 & Q & Rs & F1 & _ & Et & Eg); auto.
  { intros i r0 E. discriminate. } { intros i r0 E. destruct i; discriminate. } { rewrite Fr. intros h []. } { rewrite Fr. auto. }
  cbn in Q. destruct sub; try discriminate. apply andb_true_iff in Q as [_ Q]. apply bytes_eqb_eq in Q. subst str.
  rewrite Eg. f_equal. f_equal. destruct Rs as [[|n] Rs]; [discriminate|]. cbn [read] in Rs. apply bind_inv in Rs as (ok & s3 & R1 & R2).
  unfold if_str in R1. apply bind_inv in R1 as (tl & s4 & R0 & R1). unfold s_tail in R0.
  match type of R0 with (if ?c then _ else _) = _ => destruct c eqn:C end; [|discriminate]. injection R0 as <- <-.
  destruct (has_prefix _ w) eqn:Pf.
  - apply has_prefix_iff in Pf as [u Pu]. unfold move in R1. match type of R1 with (if ?c then _ else _) = _ => destruct c eqn:D end.
    + injection R1 as <- <-. cbn in R2. injection R2 as R2. discriminate.
    + injection R1 as <- <-. cbn in R2. injection R2 as <-. cbn.
      assert (W : wrap64 (pos (sc s1) + slen w) = pos (sc s1) + slen w).
      { pose proof (slen_nonneg w). destruct I as [_ I]. rewrite <- F1 in I. rewrite wrap64_id; [auto|].
        assert (slen w <= slen (full (sc s1)) - pos (sc s1)); [|lia].
        pose proof (f_equal slen Pu) as Sl. rewrite slen_app in Sl. pose proof (slen_nonneg u).
        unfold slen in *. rewrite skipn_length in Sl. lia. }
      rewrite W. unfold slice. rewrite <- F1, Pu. replace (pos (sc s1) + slen w - pos (sc s1)) with (slen w) by lia.
      unfold slen. rewrite Nat2Z.id, firstn_app, firstn_all, Nat.sub_diag. cbn. rewrite app_nil_r. auto.
  - injection R1 as <- <-. cbn in R2. injection R2 as R2. discriminate.
Qed.
Print Assumptions C54_cut_out_literals.
(** A Pick adds the Segment it read, at the end. *)
Theorem C54_pick_adds_what_it_read {L : GoLib} e info b r s s' : reads e (RPick info b r) s None s' <->
  exists s1, reads e r s None s1 /\ s' = with_heap (basket_add b (mkSeg info (make_token (pos (sc s)) (pos (sc s1)))) (hp s1)) s1.
Proof. apply pick_adds. Qed.
Print Assumptions C54_pick_adds_what_it_read.
Example C54_case {L : GoLib} : rall (pickable 0 (fun _ => false) (picks_only 0 (lit "a"))) (RMany (RSeq [RPick (lit "p") 0 (RLit (lit "a")); lb])) = true.
Proof. reflexivity. Qed.

(* ------------------------------------------------------------------- C55 *)

(** C55 is false: the function is also called for reads that are undone later. *)
Theorem C55_map_refuted {L : GoLib} :
  ~ (forall r s s', rall no_wrap r = true -> in_text s -> h_events (hp s) = [] -> reads [] r s None s' ->
     forall ev, In ev (h_events (hp s')) -> t_to (snd ev) <= pos (sc s')).
Proof.
  intros H. assert (Rd : exists s', reads [] (ROpt (RSeq [RMap 0 la; lb])) (mk (lit "ac") 0) None s' /\ h_events (hp s') = [(0%nat, mkTok 0 1)] /\ pos (sc s') = 0).
  { eexists. split; [run 9%nat|]. split; reflexivity. }
  destruct Rd as (s' & Rd & E & P). specialize (H (ROpt (RSeq [RMap 0 la; lb])) (mk (lit "ac") 0) s' eq_refl ltac:(in_here) eq_refl Rd (0%nat, mkTok 0 1)).
  rewrite E, P in H. cbn in H. specialize (H (or_introl eq_refl)). lia.
Qed.
Print Assumptions C55_map_refuted.
(** Exactly: a Map that succeeds calls its function once, with the Token it read, after
    everything that happened below it; calls are never taken back, and every call
    stems from a successful read of a Map of the graph ([q] as in C54). *)
Theorem C55_map_calls_exact {L : GoLib} e id r s s' : reads e (RMap id r) s None s' <->
  exists s1, reads e r s None s1 /\ s' = with_heap (add_event id (make_token (pos (sc s)) (pos (sc s1))) (hp s1)) s1.
Proof. apply map_calls. Qed.
Print Assumptions C55_map_calls_exact.
Theorem C55_calls_stem_from_reads_partial {L : GoLib} e q r s x s' :
  eall (mappable q) e -> rall (mappable q) r = true -> in_text s -> reads e r s x s' ->
  exists new, h_events (hp s') = h_events (hp s) ++ new /\
    forall ev, In ev new -> exists sub s1 s2, q (RMap (fst ev) sub) = true /\ reads e sub s1 None s2 /\ snd ev = mkTok (pos (sc s1)) (pos (sc s2)).
Proof.
  intros He Hr I Rd. destruct (mapped e q He r s x s' Hr I Rd) as (new & E & F). exists new. split; auto.
  intros ev Hev. rewrite Forall_forall in F. destruct (F ev Hev) as (sub & s1 & s2 & A & B & _ & _ & C). exists sub, s1, s2. auto.
Qed.
Print Assumptions C55_calls_stem_from_reads_partial.
Example C55_case {L : GoLib} : exists s', reads [] (RMany (RMap 0 (RSeq [RMap 1 la; lb]))) (mk (lit "ababc") 0) None s' /\
  h_events (hp s') = [(1%nat, mkTok 0 1); (0%nat, mkTok 0 2); (1%nat, mkTok 2 3); (0%nat, mkTok 2 4)].
Proof. eexists. split; [run 20%nat|reflexivity]. Qed.
