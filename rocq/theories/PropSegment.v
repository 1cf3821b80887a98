(** PropSegment.v - C24 to C31: tokens and segments (token.go, segment.go).
    The vocabulary is in SpecSeg.v, the proofs in TokenFacts.v, SortFacts.v and
    SegFacts.v. *)
From Verif Require Import SegFacts ExKit.
From Coq Require Import Lia ZifyBool Sorted Permutation.

Definition tk0 (a b : Z) : token := mkTok a b.
Definition sg (i : bytes) (a b : Z) : segment := mkSeg i (mkTok a b).

(* ------------------------------------------------------------------- C24 *)

(** C24. Len is an int subtraction; it is the length unless the length does not
    fit into an int. *)
Theorem C24_tokens_ordered :
  (forall t, obtained t -> ordered t) /\
  (forall a b, make_token a b = make_token b a) /\
  (forall a b, t_from (make_token a b) = Z.min a b /\ t_to (make_token a b) = Z.max a b) /\
  (forall t, obtained t -> t_to t - t_from t < 2 ^ 63 -> tok_len t = t_to t - t_from t).
Proof.
  split; [exact obtained_ordered|]. split; [exact make_token_comm|]. split.
  - intros a b. rewrite make_token_spec. auto.
  - intros t O. apply tok_len_ok, obtained_ordered, O.
Qed.
Print Assumptions C24_tokens_ordered.

Example C24_case : obtained (fst (tok_split (make_token 9 2) (make_token 4 6))) /\
  fst (tok_split (make_token 9 2) (make_token 4 6)) = mkTok 2 4 /\ tok_len (mkTok 2 4) = 2.
Proof. split; [repeat constructor|]. split; reflexivity. Qed.

(* ------------------------------------------------------------------- C25 *)

(** C25. *)
Theorem C25_token_relations :
  (forall a, tok_covers a a = true) /\
  (forall a b c, tok_covers a b = true -> tok_covers b c = true -> tok_covers a c = true) /\
  (forall a b, tok_covers a b = true -> tok_covers b a = true -> a = b) /\
  (forall a b, tok_before a b = tok_after b a) /\
  (forall a b, tok_clashes a b = tok_clashes b a) /\
  (forall a, tok_clashes a a = false) /\
  (forall a b, ordered a -> ordered b -> (tok_clashes a b = true <->
     (exists p, inside a p /\ inside b p) /\ (exists p, inside a p /\ ~ inside b p) /\
     (exists p, inside b p /\ ~ inside a p))) /\
  (forall a b, nonempty b -> (tok_covers a b = true <-> forall p, inside b p -> inside a p)) /\
  (forall a b, nonempty a -> nonempty b ->
     (tok_before a b = true <-> forall p q, inside a p -> inside b q -> p < q)) /\
  (forall a b, nonempty a -> nonempty b ->
     let n (x : bool) := if x then 1 else 0 in
     n (tok_before a b) + n (tok_after a b) + n (tok_clashes a b) + n (tok_covers a b || tok_covers b a) = 1).
Proof.
  split; [exact covers_refl|]. split; [exact covers_trans|]. split; [exact covers_antisym|].
  split; [reflexivity|]. split; [intros a b; tk; lia|]. split; [intros a; tk; lia|].
  split; [exact clashes_iff|]. split; [exact covers_inside|]. split; [exact before_inside|exact one_relation].
Qed.
Print Assumptions C25_token_relations.

Example C25_case : tok_clashes (mkTok 0 3) (mkTok 2 5) = true /\ tok_covers (mkTok 0 5) (mkTok 2 5) = true /\
  tok_before (mkTok 0 2) (mkTok 2 5) = true /\ nonempty (mkTok 0 3) /\ nonempty (mkTok 2 5).
Proof. repeat split; reflexivity. Qed.

(* ------------------------------------------------------------------- C26 *)

(** C26. *)
Theorem C26_merge_smallest_cover :
  (forall t u, tok_covers (tok_merge t u) t = true /\ tok_covers (tok_merge t u) u = true /\
     (forall v, tok_covers v t = true -> tok_covers v u = true -> tok_covers v (tok_merge t u) = true)) /\
  (forall t u v, tok_merge t (tok_merge u v) = tok_merge (tok_merge t u) v) /\
  (forall t u, tok_merge t u = tok_merge u t) /\ (forall t, tok_merge t t = t).
Proof.
  split; [intros t u; apply (merge_props t u)|]. split; [|split].
  - intros. rewrite !merge_spec. cbn [t_from t_to]. f_equal; lia.
  - intros. rewrite !merge_spec. f_equal; lia.
  - intros [a b]. rewrite merge_spec. cbn [t_from t_to]. f_equal; lia.
Qed.
Print Assumptions C26_merge_smallest_cover.

Example C26_case : tok_merge (mkTok 2 4) (mkTok 7 9) = mkTok 2 9.
Proof. reflexivity. Qed.

(* ------------------------------------------------------------------- C27 *)

(** C27, for tokens and for segments. *)
Theorem C27_split_without_loss t sep : ordered sep -> tok_covers t sep = true ->
  exists l r, tok_split t sep = (l, r) /\ ordered l /\ ordered r /\
    t_from l = t_from t /\ t_to l = t_from sep /\ t_from r = t_to sep /\ t_to r = t_to t /\
    (forall p, inside t p <-> inside l p \/ inside sep p \/ inside r p) /\
    (forall p, ~ (inside l p /\ inside sep p) /\ ~ (inside sep p /\ inside r p) /\ ~ (inside l p /\ inside r p)).
Proof.
  intros O C. apply covers_iff in C. eexists _, _. split; [reflexivity|]. rewrite !make_token_spec.
  unfold ordered, inside in *. cbn [t_from t_to]. repeat split; intros; lia.
Qed.
Print Assumptions C27_split_without_loss.
Theorem C27_segment_split v sep : ordered (s_tok sep) -> tok_covers (s_tok v) (s_tok sep) = true ->
  exists l r, seg_split v sep = (l, r) /\ s_info l = s_info v /\ s_info r = s_info v /\ ordered (s_tok l) /\ ordered (s_tok r) /\
    (forall p, inside (s_tok v) p <-> inside (s_tok l) p \/ inside (s_tok sep) p \/ inside (s_tok r) p) /\
    (forall p, inside (s_tok l) p -> p < t_from (s_tok sep)) /\ (forall p, inside (s_tok r) p -> t_to (s_tok sep) <= p).
Proof.
  intros O C. destruct (C27_split_without_loss _ _ O C) as (l & r & E & Ol & Or & A & B & D & F & G & _).
  exists (mkSeg (s_info v) l), (mkSeg (s_info v) r). unfold seg_split. rewrite E. cbn [s_info s_tok].
  split; [reflexivity|]. split; [reflexivity|]. split; [reflexivity|]. split; [exact Ol|]. split; [exact Or|]. split; [exact G|]. unfold inside. split; intros p P; lia.
Qed.
Print Assumptions C27_segment_split.

Example C27_case : tok_covers (mkTok 1 9) (mkTok 3 5) = true /\ ordered (mkTok 3 5) /\
  tok_split (mkTok 1 9) (mkTok 3 5) = (mkTok 1 3, mkTok 5 9).
Proof. split; [reflexivity|]. split; [unfold ordered; cbn; lia|reflexivity]. Qed.

(* ------------------------------------------------------------------- C28 *)

(** C28. [placed f t segs]: one after the other between f and t. *)
Theorem C28_segmentate_succeeds_iff info f t segs : f <= t -> t - f < 2 ^ 63 ->
  Forall (fun x => ordered (s_tok x)) segs ->
  (snd (seg_segmentate (mkSeg info (mkTok f t)) segs) = None <-> placed f t segs).
Proof. exact (segmentate_iff info f t segs). Qed.
Print Assumptions C28_segmentate_succeeds_iff.

(** [m] marks the elements of the result that are the given segments. *)
Theorem C28_segmentate_tiles info f t segs : t - f < 2 ^ 63 -> placed f t segs ->
  exists out m, seg_segmentate (mkSeg info (mkTok f t)) segs = (out, None) /\ tiles f t out /\
    map snd m = out /\ map snd (filter fst m) = segs /\
    Forall (fun x => fst x = false -> s_info (snd x) = info /\ nonempty (s_tok (snd x))) m.
Proof.
  intros Hs P. destruct (segmentate_filled info f t segs Hs P) as (out & E & F).
  destruct (filled_fillers _ _ _ _ _ F) as (m & A & B & C). exists out, m.
  pose proof (filled_tiles _ _ _ _ _ (placed_ordered _ _ _ P) F). tauto.
Qed.
Print Assumptions C28_segmentate_tiles.

Lemma tiles_in f t segs : tiles f t segs -> forall x, In x segs ->
  f <= t_from (s_tok x) /\ ordered (s_tok x) /\ t_to (s_tok x) <= t.
Proof.
  revert f. induction segs as [|y segs IH]; intros f H x I; [destruct I|]. cbn [tiles] in H. destruct H as (<- & O & T).
  assert (t_to (s_tok y) <= t).
  { clear -T. revert T. generalize (t_to (s_tok y)) as g. induction segs as [|z segs IH]; intros g; cbn [tiles]; [lia|].
    intros (<- & O & T). apply IH in T. unfold ordered in O. lia. }
  destruct I as [<-|I]; [unfold ordered in *; lia|]. destruct (IH _ T x I) as (A & B & C). unfold ordered in *. lia.
Qed.

Theorem C28_scanner_segmentate_covers_text s segs : slen (full (sc s)) < 2 ^ 63 ->
  placed 0 (slen (full (sc s))) segs ->
  exists out parts, segmentate (sc s) segs = (out, None) /\
    Forall2 (fun x p => get_tok (s_tok x) s = Ok (p, s)) out parts /\ concat parts = full (sc s).
Proof.
  intros Hs P. destruct (C28_segmentate_tiles [] 0 (slen (full (sc s))) segs) as (out & m & E & T & _); [lia|auto|].
  exists out, (map (fun x => slice (full (sc s)) (t_from (s_tok x)) (t_to (s_tok x))) out). split; [|split].
  - unfold segmentate. rewrite make_token_spec. pose proof (slen_nonneg (full (sc s))).
    rewrite Z.min_l, Z.max_r by lia. exact E.
  - assert (G : forall x, In x out -> 0 <= t_from (s_tok x) /\ ordered (s_tok x) /\ t_to (s_tok x) <= slen (full (sc s)))
      by (apply tiles_in; exact T).
    clear -G. induction out as [|x out IH]; cbn [map]; constructor.
    + destruct (G x (or_introl eq_refl)) as (A & B & C). unfold get_tok, ordered in *.
      replace (_ && _)%bool with true by lia. reflexivity.
    + apply IH. intros; apply G; right; auto.
  - rewrite (tiles_concat (full (sc s)) out 0) by (auto; lia). reflexivity.
Qed.
Print Assumptions C28_scanner_segmentate_covers_text.

Example C28_case : placed 0 9 [sg (lit "a") 2 4; sg (lit "b") 4 4; sg (lit "c") 6 9] /\
  seg_segmentate (sg (lit "w") 0 9) [sg (lit "a") 2 4; sg (lit "b") 4 4; sg (lit "c") 6 9] =
  ([sg (lit "w") 0 2; sg (lit "a") 2 4; sg (lit "b") 4 4; sg (lit "w") 4 6; sg (lit "c") 6 9], None) /\
  snd (seg_segmentate (sg (lit "w") 0 9) [sg (lit "a") 2 4; sg (lit "c") 3 9]) <> None.
Proof. split; [cbn; unfold ordered; cbn; lia|]. split; [reflexivity|discriminate]. Qed.

(* ------------------------------------------------------------------- C29 *)

(** C29. *)
Theorem C29_sort_segments_permutes l : Permutation (sort_segments l) l.
Proof. exact (sort_segments_perm l). Qed.
Print Assumptions C29_sort_segments_permutes.
Theorem C29_sort_segments_covering_first l : laminar l -> StronglySorted covers_or_before (sort_segments l).
Proof. exact (sort_segments_sorted l). Qed.
Print Assumptions C29_sort_segments_covering_first.

Ltac laminar_here := split; [intros x I; repeat destruct I as [<-|I]; try destruct I; unfold nonempty; cbn; lia|
  intros x y I J; repeat destruct I as [<-|I]; try destruct I; repeat destruct J as [<-|J]; try destruct J; reflexivity].

Example C29_case : laminar [sg (lit "a") 4 6; sg (lit "b") 0 9; sg (lit "c") 1 3] /\
  sort_segments [sg (lit "a") 4 6; sg (lit "b") 0 9; sg (lit "c") 1 3] =
  [sg (lit "b") 0 9; sg (lit "c") 1 3; sg (lit "a") 4 6].
Proof. split; [laminar_here|vm_compute; reflexivity]. Qed.

(* ------------------------------------------------------------------- C30 *)

(** C30 is false: the comparison of SortSegments is reflexive. *)
Theorem C30_sort_segments_stable_refuted :
  ~ (forall l t, laminar l -> filter (same_tok t) (sort_segments l) = filter (same_tok t) l).
Proof.
  intros H. specialize (H [sg (lit "a") 0 1; sg (lit "b") 0 1] (mkTok 0 1)).
  assert (L : laminar [sg (lit "a") 0 1; sg (lit "b") 0 1]) by laminar_here.
  specialize (H L). vm_compute in H. discriminate.
Qed.
Print Assumptions C30_sort_segments_stable_refuted.

(** What it does: segments with equal tokens come out in reverse order. *)
Theorem C30_sort_segments_reverses_exact l t : laminar l ->
  filter (same_tok t) (sort_segments l) = rev (filter (same_tok t) l).
Proof. exact (sort_segments_reverses l t). Qed.
Print Assumptions C30_sort_segments_reverses_exact.

Example C30_case : laminar [sg (lit "a") 0 1; sg (lit "x") 0 4; sg (lit "b") 0 1; sg (lit "c") 0 1] /\
  sort_segments [sg (lit "a") 0 1; sg (lit "x") 0 4; sg (lit "b") 0 1; sg (lit "c") 0 1] =
  [sg (lit "x") 0 4; sg (lit "c") 0 1; sg (lit "b") 0 1; sg (lit "a") 0 1].
Proof. split; [laminar_here|vm_compute; reflexivity]. Qed.

(* ------------------------------------------------------------------- C31 *)

(** C31. [key order x] is the index of the info of x in order, -1 if absent. *)
Theorem C31_by_order_permutes l order : Permutation (sort_segments_by_order l order) l.
Proof. exact (sort_segments_by_order_perm l order). Qed.
Print Assumptions C31_by_order_permutes.
Theorem C31_by_order_sorted l order : laminar l -> NoDup order ->
  StronglySorted (by_order order) (sort_segments_by_order l order).
Proof. exact (sort_by_order_sorted l order). Qed.
Print Assumptions C31_by_order_sorted.
Theorem C31_by_order_stable l order t k : laminar l -> NoDup order ->
  filter (fun x => same_tok t x && (key order x =? k)) (sort_segments_by_order l order)
  = filter (fun x => same_tok t x && (key order x =? k)) l.
Proof. exact (sort_by_order_stable l order t k). Qed.
Print Assumptions C31_by_order_stable.

Example C31_case :
  let l := [sg (lit "b") 0 4; sg (lit "u") 0 4; sg (lit "a") 0 4; sg (lit "v") 0 4; sg (lit "z") 0 9] in
  laminar l /\ NoDup [lit "a"; lit "b"] /\
  sort_segments_by_order l [lit "a"; lit "b"] =
  [sg (lit "z") 0 9; sg (lit "u") 0 4; sg (lit "v") 0 4; sg (lit "a") 0 4; sg (lit "b") 0 4].
Proof.
  split; [laminar_here|]. split; [|vm_compute; reflexivity].
  constructor; [intros [E|[]]; discriminate|constructor; [intros []|constructor]].
Qed.
