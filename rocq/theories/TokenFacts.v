(** TokenFacts.v - tokens and Segmentate. *)
From Verif Require Export SpecSeg Graph BaseFacts.
From Coq Require Import Lia ZifyBool.

Ltac tk := unfold ordered, nonempty, inside, tok_clashes, tok_covers, tok_before, tok_after, tok_merge, tok_split, make_token in *;
  cbn [t_from t_to fst snd] in *.

Lemma make_token_ordered a b : ordered (make_token a b).
Proof. tk. destruct (b <? a) eqn:E; cbn; lia. Qed.
Lemma make_token_comm a b : make_token a b = make_token b a.
Proof.
  tk. destruct (b <? a) eqn:E1, (a <? b) eqn:E2; try lia; auto. f_equal; lia.
Qed.
Lemma make_token_spec a b : make_token a b = mkTok (Z.min a b) (Z.max a b).
Proof. tk. destruct (b <? a) eqn:E; f_equal; lia. Qed.
Lemma merge_spec t u : tok_merge t u = mkTok (Z.min (t_from t) (t_from u)) (Z.max (t_to t) (t_to u)).
Proof. unfold tok_merge. f_equal; destruct (_ <? _) eqn:E; lia. Qed.
Lemma tok_len_ok t : ordered t -> t_to t - t_from t < 2 ^ 63 -> tok_len t = t_to t - t_from t.
Proof. intros H L. unfold tok_len. apply wrap64_id. tk. lia. Qed.
Lemma tok_ext t u : t_from t = t_from u -> t_to t = t_to u -> t = u.
Proof. destruct t, u; cbn; congruence. Qed.

Lemma obtained_ordered t : obtained t -> ordered t.
Proof.
  induction 1; try apply make_token_ordered.
  - rewrite merge_spec. tk. lia.
  - unfold tokenize, bind, mark, gets in H. destruct (f s) as [[b s1]| |]; try discriminate.
    destruct b.
    + injection H as <- <-. apply make_token_ordered.
    + destruct (to_marker (pos (sc s)) s1) as [[b' s2]| |]; try discriminate.
      injection H as <- <-. apply make_token_ordered.
  - unfold tokenize_use, bind, mark, gets in H. destruct (f s) as [[[e|] s1]| |]; try discriminate.
    + destruct (to_marker (pos (sc s)) s1) as [[b' s2]| |]; try discriminate.
      injection H as <- <-. apply make_token_ordered.
    + injection H as <- <-. apply make_token_ordered.
Qed.

Lemma covers_iff t u : tok_covers t u = true <-> t_from t <= t_from u /\ t_to u <= t_to t.
Proof. tk. lia. Qed.
Lemma covers_refl t : tok_covers t t = true.
Proof. tk. lia. Qed.
Lemma covers_trans a b c : tok_covers a b = true -> tok_covers b c = true -> tok_covers a c = true.
Proof. tk. lia. Qed.
Lemma covers_antisym a b : tok_covers a b = true -> tok_covers b a = true -> a = b.
Proof. rewrite !covers_iff. intros. apply tok_ext; lia. Qed.
Lemma covers_inside a b : nonempty b -> (tok_covers a b = true <-> forall p, inside b p -> inside a p).
Proof.
  rewrite covers_iff. tk. intros N. split; [intros; lia|]. intros H.
  pose proof (H (t_from b)). pose proof (H (t_to b - 1)). lia.
Qed.
Lemma before_inside a b : nonempty a -> nonempty b ->
  (tok_before a b = true <-> forall p q, inside a p -> inside b q -> p < q).
Proof.
  tk. intros N N'. split; [intros; lia|]. intros H. pose proof (H (t_to a - 1) (t_from b)). lia.
Qed.
Lemma clashes_iff a b : ordered a -> ordered b ->
  (tok_clashes a b = true <->
   (exists p, inside a p /\ inside b p) /\ (exists p, inside a p /\ ~ inside b p) /\
   (exists p, inside b p /\ ~ inside a p)).
Proof.
  tk. intros Ha Hb. split.
  - intros H. split; [exists (Z.max (t_from a) (t_from b)); lia|].
    assert (t_from a < t_from b /\ t_to a < t_to b \/ t_from b < t_from a /\ t_to b < t_to a) as [C|C] by lia.
    + split; [exists (t_from a)|exists (t_to a)]; lia.
    + split; [exists (t_to b)|exists (t_from b)]; lia.
  - intros ((p & P) & (q & Q) & (r & R)). lia.
Qed.
Lemma one_relation a b : nonempty a -> nonempty b ->
  let n (x : bool) := if x then 1 else 0 in
  n (tok_before a b) + n (tok_after a b) + n (tok_clashes a b) + n (tok_covers a b || tok_covers b a) = 1.
Proof.
  tk. intros Ha Hb.
  destruct (t_to a <=? t_from b) eqn:E1, (t_to b <=? t_from a) eqn:E2,
    ((t_from a <=? t_from b) && (t_to b <=? t_to a)) eqn:E3,
    ((t_from b <=? t_from a) && (t_to a <=? t_to b)) eqn:E4; cbn; lia.
Qed.

(* -------------------------------------------------------------- Segmentate *)

Definition small (f t : Z) : Prop := t - f < 2 ^ 63.

Lemma segmentate_loop_ok info segs : forall f t res, t - f < 2 ^ 63 -> placed f t segs ->
  exists out, filled info t f segs out /\
    segmentate_loop segs res (mkSeg info (mkTok f t)) = (res ++ out, None).
Proof.
  induction segs as [|x segs IH]; intros f t res Hs H; cbn [placed] in H.
  - cbn [segmentate_loop s_tok]. rewrite tok_len_ok by (tk; lia). cbn [t_from t_to].
    destruct (0 <? t - f) eqn:E.
    + eexists. split; [|reflexivity]. constructor. lia.
    + exists []. rewrite app_nil_r. split; [|reflexivity]. replace f with t by lia. constructor.
  - destruct H as (H1 & H2 & H3).
    assert (P : t_to (s_tok x) <= t).
    { clear -H3. revert H3. generalize (t_to (s_tok x)) as f. induction segs as [|y segs IH]; intros f; cbn [placed]; auto.
      intros (A & B & C). apply IH in C. unfold ordered in B. lia. }
    cbn [segmentate_loop]. unfold seg_split. cbn [s_tok s_info tok_split t_from t_to].
    replace (tok_covers (mkTok f t) (s_tok x)) with true by (tk; lia). cbn [negb].
    rewrite (make_token_spec f), (make_token_spec _ t).
    rewrite !Z.min_l, !Z.max_r by (tk; lia). rewrite tok_len_ok by (tk; lia). cbn [t_from t_to].
    set (res' := (if 0 <? t_from (s_tok x) - f then res ++ [mkSeg info (mkTok f (t_from (s_tok x)))] else res) ++ [x]).
    destruct (IH (t_to (s_tok x)) t res' ltac:(tk; lia) H3) as (out & F & E).
    destruct (0 <? t_from (s_tok x) - f) eqn:G.
    + exists (mkSeg info (mkTok f (t_from (s_tok x))) :: x :: out). split; [constructor; auto; lia|].
      rewrite E. unfold res'. rewrite <- !app_assoc. reflexivity.
    + exists (x :: out). split; [constructor; auto; lia|]. rewrite E. unfold res'. rewrite <- !app_assoc. reflexivity.
Qed.

Lemma segmentate_loop_err info segs : forall f t res, t - f < 2 ^ 63 -> f <= t ->
  Forall (fun x => ordered (s_tok x)) segs ->
  snd (segmentate_loop segs res (mkSeg info (mkTok f t))) = None -> placed f t segs.
Proof.
  induction segs as [|x segs IH]; intros f t res Hs H F; cbn [segmentate_loop placed]; [auto|].
  inversion F as [|? ? Fx F']; subst. cbn [s_tok].
  destruct (tok_covers (mkTok f t) (s_tok x)) eqn:C; cbn [negb]; [|discriminate].
  apply covers_iff in C. cbn [t_from t_to] in C.
  unfold seg_split. cbn [s_tok s_info tok_split t_from t_to].
  rewrite (make_token_spec _ t). rewrite !Z.min_l, !Z.max_r by (tk; lia).
  intros E. apply IH in E; auto; try (tk; lia). repeat split; auto. lia.
Qed.

Lemma filled_tiles info t f segs out : Forall (fun x => ordered (s_tok x)) segs ->
  filled info t f segs out -> tiles f t out.
Proof.
  intros F. induction 1; cbn; tk.
  - reflexivity.
  - repeat split; lia.
  - inversion F; subst. auto.
  - inversion F; subst. repeat split; auto. lia.
Qed.

(** Given segments in order, everything else is a non-empty filler. *)
Lemma filled_fillers info t f segs out : filled info t f segs out ->
  exists m : list (bool * segment), map snd m = out /\ map snd (filter fst m) = segs /\
    Forall (fun x => fst x = false -> s_info (snd x) = info /\ nonempty (s_tok (snd x))) m.
Proof.
  induction 1 as [|f H|f x segs res E H IH|f x segs res E H IH].
  - exists []. repeat split; auto.
  - exists [(false, mkSeg info (mkTok f t))]. split; [auto|]. split; [auto|]. constructor; auto.
  - destruct IH as (m & <- & <- & F). exists ((true, x) :: m). split; [auto|]. split; [auto|]. constructor; auto. discriminate.
  - destruct IH as (m & <- & <- & F).
    exists ((false, mkSeg info (mkTok f (t_from (s_tok x)))) :: (true, x) :: m). split; [auto|]. split; [auto|].
    constructor; [auto|]. constructor; auto. discriminate.
Qed.

Lemma tiles_concat (s : bytes) segs : forall f, 0 <= f -> tiles f (slen s) segs ->
  concat (map (fun x => slice s (t_from (s_tok x)) (t_to (s_tok x))) segs) = skipn (Z.to_nat f) s.
Proof.
  induction segs as [|x segs IH]; intros f Hf H; cbn [tiles map concat] in *.
  - subst f. unfold slen. rewrite Nat2Z.id, skipn_all. reflexivity.
  - destruct H as (<- & O & H). unfold ordered in O. rewrite (IH (t_to (s_tok x))) by (auto; lia).
    unfold slice. 
    replace (Z.to_nat (t_to (s_tok x))) with (Z.to_nat (t_from (s_tok x)) + Z.to_nat (t_to (s_tok x) - t_from (s_tok x)))%nat by lia.
    rewrite <- skipn_skipn. apply firstn_skipn.
Qed.

Theorem segmentate_iff info f t segs : f <= t -> t - f < 2 ^ 63 ->
  Forall (fun x => ordered (s_tok x)) segs ->
  (snd (seg_segmentate (mkSeg info (mkTok f t)) segs) = None <-> placed f t segs).
Proof.
  intros H Hs F. split; [apply segmentate_loop_err; auto|].
  intros P. destruct (segmentate_loop_ok info segs f t [] Hs P) as (out & _ & E).
  unfold seg_segmentate. rewrite E. reflexivity.
Qed.
Theorem segmentate_filled info f t segs : t - f < 2 ^ 63 -> placed f t segs ->
  exists out, seg_segmentate (mkSeg info (mkTok f t)) segs = (out, None) /\ filled info t f segs out.
Proof.
  intros Hs P. destruct (segmentate_loop_ok info segs f t [] Hs P) as (out & F & E). exists out. auto.
Qed.
Lemma placed_ordered f t segs : placed f t segs -> Forall (fun x => ordered (s_tok x)) segs.
Proof.
  revert f. induction segs as [|x segs IH]; cbn [placed]; intros f H; constructor; [apply H|].
  apply (IH (t_to (s_tok x))), H.
Qed.

Lemma merge_props t u : (ordered t -> ordered u -> ordered (tok_merge t u)) /\
  tok_covers (tok_merge t u) t = true /\ tok_covers (tok_merge t u) u = true /\
  (forall v, tok_covers v t = true -> tok_covers v u = true -> tok_covers v (tok_merge t u) = true).
Proof.
  rewrite !covers_iff, merge_spec. unfold ordered. cbn [t_from t_to].
  split; [lia|]. split; [lia|]. split; [lia|]. intros v. rewrite !covers_iff. cbn [t_from t_to]. lia.
Qed.
