(** SegFacts.v - SortSegments and SortSegmentsByOrder. *)
From Verif Require Export TokenFacts SortFacts.
From Coq Require Import Lia ZifyBool Sorted Permutation.

Lemma tok_eqb_eq t u : tok_eqb t u = true <-> t = u.
Proof.
  unfold tok_eqb. split; [intros H; apply tok_ext; lia|intros ->; lia].
Qed.

Lemma sort_segments_perm l : Permutation (sort_segments l) l.
Proof. apply go_stable_perm. Qed.
Lemma sort_segments_by_order_perm l o : Permutation (sort_segments_by_order l o) l.
Proof. apply go_stable_perm. Qed.

Ltac lam L := let N := fresh in let C := fresh in destruct L as [N C];
  repeat match goal with
  | H : In ?x _ |- _ => let K := fresh in pose proof (N x H) as K; unfold nonempty in K; revert H
  end; intros.

Lemma laminar_pair l x y : laminar l -> In x l -> In y l ->
  t_from (s_tok x) < t_to (s_tok x) /\ t_from (s_tok y) < t_to (s_tok y) /\
  tok_clashes (s_tok x) (s_tok y) = false.
Proof. intros [N C] I J. repeat split; auto; apply N; auto. Qed.

Lemma cob_trans l x y z : laminar l -> In x l -> In y l -> In z l ->
  covers_or_before x y -> covers_or_before y z -> covers_or_before x z.
Proof.
  intros L I J K. destruct (laminar_pair _ _ _ L I J) as (A & B & C).
  destruct (laminar_pair _ _ _ L J K) as (_ & D & E). destruct (laminar_pair _ _ _ L I K) as (_ & _ & F).
  unfold covers_or_before. tk. lia.
Qed.
Lemma cob_total l x y : laminar l -> In x l -> In y l -> covers_or_before x y \/ covers_or_before y x.
Proof.
  intros L I J. destruct (laminar_pair _ _ _ L I J) as (A & B & C). unfold covers_or_before. tk. lia.
Qed.
Lemma cob_antisym l x y : laminar l -> In x l -> In y l -> covers_or_before x y -> covers_or_before y x ->
  s_tok x = s_tok y.
Proof.
  intros L I J. destruct (laminar_pair _ _ _ L I J) as (A & B & C). unfold covers_or_before. tk.
  intros. apply tok_ext; lia.
Qed.
Lemma seg_less_iff x y : seg_less x y = true <-> covers_or_before x y.
Proof. unfold seg_less, covers_or_before. rewrite orb_true_iff. tauto. Qed.

(** The numbered version: cover or before, equal tokens in reverse order. *)
Lemma sort_segments_numbered l : laminar l ->
  exists l', sort_segments l = map fst l' /\ Permutation l' (number 0 l) /\
    StronglySorted (fun x y => covers_or_before (fst x) (fst y) /\
      (s_tok (fst x) = s_tok (fst y) -> (snd y < snd x)%nat)) l'.
Proof.
  intros L.
  pose (le := fun x y : segment * nat => (In (fst x) l /\ In (fst y) l) /\
     covers_or_before (fst x) (fst y) /\ (s_tok (fst x) = s_tok (fst y) -> (snd y < snd x)%nat)).
  assert (TR : forall x y z, le x y -> le y z -> le x z).
  { intros [x i] [y j] [z k]. unfold le. cbn [fst snd]. intros ((Ix & Iy) & H1 & N1) ((_ & Iz) & H2 & N2).
    split; [auto|]. split; [eapply (cob_trans l x y z); eauto|]. intros E.
    assert (H3 : covers_or_before z x) by (left; rewrite E; apply covers_refl).
    assert (E1 : s_tok x = s_tok y).
    { eapply (cob_antisym l); eauto. eapply (cob_trans l y z x); eauto. }
    rewrite E1 in *. specialize (N1 eq_refl). specialize (N2 E). lia. }
  destruct (go_stable_spec (lift fst seg_less) le TR (number 0 l)) as [S P].
  { apply number_fop. intros x y k h Ix Iy Hk. unfold fits_pair, lift, le. cbn [fst snd]. split.
    - intros E. apply seg_less_iff in E. auto.
    - intros E. split; [auto|]. assert (NE : ~ covers_or_before y x) by (rewrite <- seg_less_iff; congruence).
      destruct (cob_total l x y L Ix Iy) as [H|H]; [|tauto]. split; auto.
      intros Q. exfalso. apply NE. left. rewrite Q. apply covers_refl. }
  exists (go_stable (lift fst seg_less) (number 0 l)). split; [|split; auto].
  - unfold sort_segments. rewrite <- go_stable_map, number_fst. reflexivity.
  - eapply sorted_impl; [|exact S]. intros x y _ _ [_ H]. exact H.
Qed.

Lemma sorted_map_fst {A B} (R : A -> A -> Prop) (l : list (A * B)) :
  StronglySorted (fun x y => R (fst x) (fst y)) l -> StronglySorted R (map fst l).
Proof.
  induction 1 as [|x l S IH F]; cbn [map]; constructor; auto. rewrite Forall_forall in *.
  intros y I. apply in_map_iff in I as (z & <- & I). apply F, I.
Qed.

Theorem sort_segments_sorted l : laminar l -> StronglySorted covers_or_before (sort_segments l).
Proof.
  intros L. destruct (sort_segments_numbered l L) as (l' & -> & P & S).
  apply sorted_map_fst. eapply sorted_impl; [|exact S]. intros x y _ _ [H _]. exact H.
Qed.
Theorem sort_segments_reverses l t : laminar l ->
  filter (same_tok t) (sort_segments l) = rev (filter (same_tok t) l).
Proof.
  intros L. destruct (sort_segments_numbered l L) as (l' & -> & P & S).
  apply ties_swap; auto. eapply sorted_impl; [|exact S]. intros x y _ _ [_ H] A B. apply H.
  apply tok_eqb_eq in A, B. congruence.
Qed.

(* -------------------------------------------------------------- by order *)

Lemma place_neg_or order : forall i info, 0 <= i -> place order i info = -1 \/ i <= place order i info.
Proof.
  induction order as [|x t IH]; intros i info H; cbn [place]; auto.
  destruct (bytes_eqb info x); [lia|]. destruct (IH (i + 1) info); lia.
Qed.
Lemma place_absent order : forall i info, ~ In info order -> place order i info = -1.
Proof.
  induction order as [|x t IH]; intros i info H; cbn [place]; auto.
  destruct (bytes_eqb info x) eqn:E; [apply bytes_eqb_eq in E; subst; exfalso; apply H; left; auto|].
  apply IH. intros I. apply H. right; auto.
Qed.

Definition found (v : Z) (order : list bytes) (i : Z) (info : bytes) : Z :=
  if v =? -1 then place order i info else v.

Lemma order_loop_diff a b : a <> b -> forall order i ai bi, NoDup order -> 0 <= i ->
  (ai <> -1 -> ~ In a order) -> (bi <> -1 -> ~ In b order) ->
  order_loop a b order i ai bi = (found ai order i a, found bi order i b).
Proof.
  intros N. induction order as [|x t IH]; intros i ai bi ND Hi HA HB; cbn [order_loop].
  - unfold found. cbn. destruct (ai =? -1) eqn:E1, (bi =? -1) eqn:E2; f_equal; lia.
  - inversion ND as [|? ? Nx ND']; subst.
    destruct (bytes_eqb a x) eqn:Ea.
    { apply bytes_eqb_eq in Ea. subst x.
      assert (Eai : ai = -1) by (destruct (Z.eq_dec ai (-1)); auto; exfalso; apply HA; auto; left; auto).
      rewrite IH; auto; try lia.
      - unfold found. cbn [place]. rewrite bytes_eqb_refl. replace (i =? -1) with false by lia.
        rewrite Eai. cbn. replace (bytes_eqb b a) with false; [reflexivity|].
        symmetry. apply Bool.not_true_is_false. rewrite bytes_eqb_eq. congruence.
      - intros Q I. apply HB; auto. right; auto. }
    destruct (bytes_eqb b x) eqn:Eb.
    { apply bytes_eqb_eq in Eb. subst x.
      assert (Ebi : bi = -1) by (destruct (Z.eq_dec bi (-1)); auto; exfalso; apply HB; auto; left; auto).
      rewrite IH; auto; try lia.
      - unfold found. cbn [place]. rewrite bytes_eqb_refl, Ea. replace (i =? -1) with false by lia.
        rewrite Ebi. reflexivity.
      - intros Q I. apply HA; auto. right; auto. }
    destruct (negb (ai =? -1) && negb (bi =? -1)) eqn:E.
    + unfold found. replace (ai =? -1) with false by lia. replace (bi =? -1) with false by lia. reflexivity.
    + rewrite IH; auto; try lia.
      * unfold found. cbn [place]. rewrite Ea, Eb. reflexivity.
      * intros Q I. apply HA; auto. right; auto.
      * intros Q I. apply HB; auto. right; auto.
Qed.
Lemma order_loop_same a : forall order i ai, 0 <= i -> -1 <= ai ->
  -1 <= fst (order_loop a a order i ai (-1)) /\ snd (order_loop a a order i ai (-1)) = -1.
Proof.
  induction order as [|x t IH]; intros i ai Hi Ha; cbn [order_loop]; [cbn; lia|].
  destruct (bytes_eqb a x); [apply IH; lia|]. replace (negb (-1 =? -1)) with false by reflexivity.
  rewrite andb_false_r. apply IH; lia.
Qed.


Lemma less_order_iff order x y : NoDup order ->
  seg_less_order order x y =
  if tok_eqb (s_tok x) (s_tok y) then key order x <? key order y
  else tok_covers (s_tok x) (s_tok y) || tok_before (s_tok x) (s_tok y).
Proof.
  intros ND. unfold seg_less_order. destruct (tok_eqb (s_tok x) (s_tok y)); cbn [negb]; auto.
  destruct (bytes_eqb (s_info x) (s_info y)) eqn:E.
  - apply bytes_eqb_eq in E. unfold key. rewrite E.
    pose proof (order_loop_same (s_info y) order 0 (-1) ltac:(lia) ltac:(lia)) as [A B].
    destruct (order_loop _ _ _ _ _ _) as [ai bi]. cbn in A, B. lia.
  - rewrite order_loop_diff; auto; try lia.
    intros Q. rewrite Q, bytes_eqb_refl in E. discriminate.
Qed.

Lemma less_order_cases l order x y : laminar l -> NoDup order -> In x l -> In y l ->
  (seg_less_order order x y = true /\
     ((covers_or_before x y /\ s_tok x <> s_tok y) \/ (s_tok x = s_tok y /\ key order x < key order y))) \/
  (seg_less_order order x y = false /\
     ((covers_or_before y x /\ s_tok x <> s_tok y) \/ (s_tok x = s_tok y /\ key order y <= key order x))).
Proof.
  intros L ND I J. rewrite (less_order_iff order x y ND).
  destruct (tok_eqb (s_tok x) (s_tok y)) eqn:E.
  - apply tok_eqb_eq in E. destruct (key order x <? key order y) eqn:K; [left|right]; split; auto; right; split; auto; lia.
  - assert (NE : s_tok x <> s_tok y) by (intros Q; apply tok_eqb_eq in Q; congruence).
    destruct (_ || _) eqn:K.
    + left. split; auto. left. split; auto. apply orb_true_iff in K. exact K.
    + right. split; auto. left. split; auto. destruct (cob_total l x y L I J) as [H|H]; auto.
      exfalso. apply orb_false_iff in K as [K1 K2]. destruct H; congruence.
Qed.

(** Sorted by position, ties by place in the order list. *)

Lemma sort_by_order_numbered l order : laminar l -> NoDup order ->
  exists l', sort_segments_by_order l order = map fst l' /\ Permutation l' (number 0 l) /\
    StronglySorted (fun x y => by_order order (fst x) (fst y) /\
      (s_tok (fst x) = s_tok (fst y) -> key order (fst x) = key order (fst y) -> (snd x < snd y)%nat)) l'.
Proof.
  intros L ND.
  pose (less := seg_less_order order).
  assert (AS : forall x y, In x l -> In y l -> s_tok x <> s_tok y -> covers_or_before x y -> covers_or_before y x -> False).
  { intros x y I J N H H'. apply N. eapply cob_antisym; eauto. }
  destruct (go_stable_stable less l) as (l' & E & P & S).
  - intros x y z I J K. subst less.
    destruct (less_order_cases l order x y L ND I J) as [[-> A]|[-> A]]; [intros _|discriminate].
    destruct (less_order_cases l order y z L ND J K) as [[-> B]|[-> B]]; [intros _|discriminate].
    destruct (less_order_cases l order x z L ND I K) as [[-> C]|[-> C]]; auto. exfalso.
    destruct A as [[A NA]|[A A']], B as [[B NB]|[B B']], C as [[C NC]|[C C']]; try congruence; try lia.
    + apply (AS y z J K NB B). eapply (cob_trans l z x y); eauto.
    + apply (AS x y I J NA A). unfold covers_or_before in *. rewrite C. exact B.
    + unfold covers_or_before in *. rewrite B in A. eauto.
    + unfold covers_or_before in *. rewrite A in C. eauto.
  - intros x y z I J K. subst less.
    destruct (less_order_cases l order x y L ND I J) as [[-> A]|[-> A]]; [discriminate|intros _].
    destruct (less_order_cases l order y z L ND J K) as [[-> B]|[-> B]]; [discriminate|intros _].
    destruct (less_order_cases l order x z L ND I K) as [[-> C]|[-> C]]; auto. exfalso.
    destruct A as [[A NA]|[A A']], B as [[B NB]|[B B']], C as [[C NC]|[C C']]; try congruence; try lia.
    + apply (AS y z J K NB); auto. eapply (cob_trans l y x z); eauto.
    + apply (AS x y I J NA); auto. unfold covers_or_before in *. rewrite C. exact B.
    + unfold covers_or_before in *. rewrite B in A. eauto.
    + unfold covers_or_before in *. rewrite A in C. eauto.
  - intros x y I J. subst less.
    destruct (less_order_cases l order x y L ND I J) as [[-> A]|[-> A]]; [intros _|discriminate].
    destruct (less_order_cases l order y x L ND J I) as [[-> B]|[-> B]]; auto. exfalso.
    destruct A as [[A NA]|[A A']], B as [[B NB]|[B B']]; try congruence; try lia; eauto.
  - exists l'. split; [exact E|]. split; [exact P|].
    eapply sorted_impl; [|exact S]. cbn beta. intros [x i] [y j] I J. cbn [fst snd]. subst less.
    apply (Permutation_in _ P), number_in in I. apply (Permutation_in _ P), number_in in J.
    destruct (less_order_cases l order x y L ND I J) as [[-> A]|[-> A]].
    + intros _. destruct A as [[A NA]|[A A']].
      * split; [split; [auto|congruence]|congruence].
      * split; [split; [left; rewrite A; apply covers_refl|lia]|lia].
    + intros [H|(_ & H & LT)]; [discriminate|].
      destruct (less_order_cases l order y x L ND J I) as [[E' B]|[_ B]]; [congruence|].
      destruct A as [[A NA]|[A A']], B as [[B NB]|[B B']]; try congruence; [exfalso; eauto|].
      split; [split; [left; rewrite A; apply covers_refl|lia]|auto].
Qed.

Theorem sort_by_order_sorted l order : laminar l -> NoDup order ->
  StronglySorted (by_order order) (sort_segments_by_order l order).
Proof.
  intros L ND. destruct (sort_by_order_numbered l order L ND) as (l' & -> & P & S).
  apply sorted_map_fst. eapply sorted_impl; [|exact S]. intros x y _ _ [H _]. exact H.
Qed.
Theorem sort_by_order_stable l order t k : laminar l -> NoDup order ->
  filter (fun x => same_tok t x && (key order x =? k)) (sort_segments_by_order l order)
  = filter (fun x => same_tok t x && (key order x =? k)) l.
Proof.
  intros L ND. destruct (sort_by_order_numbered l order L ND) as (l' & -> & P & S).
  apply ties_keep; auto. eapply sorted_impl; [|exact S]. intros x y _ _ [_ H] A B.
  apply andb_true_iff in A as [A A'], B as [B B']. apply tok_eqb_eq in A, B. apply H; [congruence|lia].
Qed.
