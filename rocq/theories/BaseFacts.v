(** BaseFacts.v - lemmas about bytes, lists and stores. *)
From Coq Require Export Lia ZifyBool ZifyNat.
From Verif Require Export Base.

Lemma bz_range b : 0 <= bz b <= 255.
Proof.
  unfold bz. pose proof (Byte.to_N_bounded b) as H. lia.
Qed.

Lemma zb_bz b : zb (bz b) = b.
Proof.
  unfold zb, bz. rewrite N2Z.id, Byte.of_to_N. reflexivity.
Qed.

Lemma bz_zb z : 0 <= z <= 255 -> bz (zb z) = z.
Proof.
  intros H. unfold zb, bz.
  destruct (Byte.of_N (Z.to_N z)) as [b|] eqn:E.
  - apply Byte.to_of_N in E. rewrite E. lia.
  - apply Byte.of_N_None_iff in E. lia.
Qed.

Lemma bz_inj a b : bz a = bz b -> a = b.
Proof. intros H. rewrite <- (zb_bz a), <- (zb_bz b), H. reflexivity. Qed.

Lemma byte_eqb_eq a b : Byte.eqb a b = true <-> a = b.
Proof.
  split.
  - apply Byte.byte_dec_bl.
  - intros ->. apply Byte.byte_dec_lb. reflexivity.
Qed.

Lemma byte_eqb_refl a : Byte.eqb a a = true.
Proof. apply byte_eqb_eq. reflexivity. Qed.

Lemma byte_eqb_neq a b : Byte.eqb a b = false <-> a <> b.
Proof.
  rewrite <- byte_eqb_eq. destruct (Byte.eqb a b); split; congruence.
Qed.

Lemma bytes_eqb_eq a : forall b, bytes_eqb a b = true <-> a = b.
Proof.
  induction a as [|x a IH]; intros [|y b]; cbn; try (split; congruence).
  rewrite andb_true_iff, byte_eqb_eq, IH. split.
  - intros [-> ->]. reflexivity.
  - intros [= -> ->]. auto.
Qed.

Lemma bytes_eqb_refl a : bytes_eqb a a = true.
Proof. apply bytes_eqb_eq. reflexivity. Qed.

Lemma bytes_eqb_neq a b : bytes_eqb a b = false <-> a <> b.
Proof.
  rewrite <- bytes_eqb_eq. destruct (bytes_eqb a b); split; congruence.
Qed.

Lemma bytes_eq_dec (a b : bytes) : {a = b} + {a <> b}.
Proof. decide equality. apply Byte.byte_eq_dec. Qed.

(** Lengths *)
Lemma slen_nil {A} : slen (@nil A) = 0.
Proof. reflexivity. Qed.
Lemma slen_cons {A} (x : A) l : slen (x :: l) = slen l + 1.
Proof. unfold slen. cbn [length]. lia. Qed.
Lemma slen_app {A} (a b : list A) : slen (a ++ b) = slen a + slen b.
Proof. unfold slen. rewrite app_length. lia. Qed.
Lemma slen_nonneg {A} (a : list A) : 0 <= slen a.
Proof. unfold slen. lia. Qed.
Lemma slen_rev {A} (a : list A) : slen (rev a) = slen a.
Proof. unfold slen. rewrite rev_length. reflexivity. Qed.
Lemma slen_zero {A} (a : list A) : slen a = 0 -> a = [].
Proof. destruct a; auto. rewrite slen_cons. pose proof (slen_nonneg a0). lia. Qed.
Lemma slen_map {A B} (f : A -> B) l : slen (map f l) = slen l.
Proof. unfold slen. rewrite map_length. reflexivity. Qed.
Lemma to_nat_slen {A} (a : list A) : Z.to_nat (slen a) = length a.
Proof. unfold slen. lia. Qed.
Lemma slen_length {A} (a : list A) : Z.of_nat (length a) = slen a.
Proof. reflexivity. Qed.

(** Splits *)
Lemma skipn_app_l {A} (a b : list A) : skipn (length a) (a ++ b) = b.
Proof. rewrite skipn_app, skipn_all, Nat.sub_diag. reflexivity. Qed.
Lemma firstn_app_l {A} (a b : list A) : firstn (length a) (a ++ b) = a.
Proof. rewrite firstn_app, firstn_all, Nat.sub_diag. cbn. apply app_nil_r. Qed.
Lemma skipn_slen {A} (a b : list A) : skipn (Z.to_nat (slen a)) (a ++ b) = b.
Proof. rewrite to_nat_slen. apply skipn_app_l. Qed.
Lemma firstn_slen {A} (a b : list A) : firstn (Z.to_nat (slen a)) (a ++ b) = a.
Proof. rewrite to_nat_slen. apply firstn_app_l. Qed.

Lemma app_inv_len {A} (a b c d : list A) :
  a ++ b = c ++ d -> length a = length c -> a = c /\ b = d.
Proof.
  intros E L. split.
  - rewrite <- (firstn_app_l a b), E, L. apply firstn_app_l.
  - rewrite <- (skipn_app_l a b), E, L. apply skipn_app_l.
Qed.

Lemma app_inv_slen {A} (a b c d : list A) :
  a ++ b = c ++ d -> slen a = slen c -> a = c /\ b = d.
Proof. unfold slen. intros E L. apply app_inv_len; auto. lia. Qed.

Lemma app_split_le {A} (a b c d : list A) :
  a ++ b = c ++ d -> (length a <= length c)%nat -> exists m, c = a ++ m /\ b = m ++ d.
Proof.
  revert c. induction a as [|x a IH]; intros c E L.
  - exists c. auto.
  - destruct c as [|y c]; [cbn in L; lia|].
    cbn in E. injection E as -> E. cbn in L.
    destruct (IH c E) as (m & -> & ->); [lia|]. exists m. auto.
Qed.

Lemma app_split_sle {A} (a b c d : list A) :
  a ++ b = c ++ d -> slen a <= slen c -> exists m, c = a ++ m /\ b = m ++ d.
Proof. unfold slen. intros E L. apply app_split_le; auto. lia. Qed.

Lemma split_at {A} (l : list A) p : 0 <= p <= slen l ->
  exists a b, l = a ++ b /\ slen a = p.
Proof.
  intros H. exists (firstn (Z.to_nat p) l), (skipn (Z.to_nat p) l). split.
  - symmetry. apply firstn_skipn.
  - unfold slen in *. rewrite firstn_length. lia.
Qed.

Lemma slice_app (a b c : bytes) : slice (a ++ b ++ c) (slen a) (slen a + slen b) = b.
Proof.
  unfold slice. rewrite skipn_slen.
  replace (slen a + slen b - slen a) with (slen b) by lia. apply firstn_slen.
Qed.

Lemma slen_slice s i j : 0 <= i <= j -> j <= slen s -> slen (slice s i j) = j - i.
Proof.
  unfold slice, slen. intros H H'. rewrite firstn_length, skipn_length. lia.
Qed.

Lemma skipn_skipn {A} i j (l : list A) : skipn i (skipn j l) = skipn (j + i) l.
Proof.
  revert l. induction j; intros l; cbn; auto. destruct l; auto. apply skipn_nil.
Qed.

Lemma slice_slice s i j k l : 0 <= i -> 0 <= k <= l -> i + l <= j ->
  slice (slice s i j) k l = slice s (i + k) (i + l).
Proof.
  intros. unfold slice. rewrite skipn_firstn_comm, skipn_skipn, firstn_firstn.
  f_equal; [lia|]. f_equal. lia.
Qed.

(** wrap-around *)
Lemma wrap64_id z : - 2 ^ 63 <= z < 2 ^ 63 -> wrap64 z = z.
Proof. intros H. unfold wrap64. rewrite Z.mod_small; lia. Qed.
Lemma wrapu64_id z : 0 <= z < 2 ^ 64 -> wrapu64 z = z.
Proof. intros H. unfold wrapu64. apply Z.mod_small. lia. Qed.

(** Stores *)
Lemma get_put_same {A} (d : A) l i x : get d (put d l i x) i = x.
Proof.
  unfold get. revert l. induction i; intros [|y l]; cbn; auto.
Qed.
Lemma get_nil {A} (d : A) i : get d [] i = d.
Proof. destruct i; reflexivity. Qed.
Lemma get_put_other {A} (d : A) i : forall l j x, i <> j -> get d (put d l i x) j = get d l j.
Proof.
  unfold get. induction i; intros l j x H.
  - destruct j; [congruence|]. destruct l; cbn; auto. destruct j; auto.
  - destruct j; destruct l; cbn; auto.
    + rewrite IHi by congruence. destruct j; reflexivity.
Qed.
Lemma get_put {A} (d : A) l i j x : get d (put d l i x) j = if Nat.eqb i j then x else get d l j.
Proof.
  destruct (Nat.eqb_spec i j) as [->|H].
  - apply get_put_same.
  - apply get_put_other. exact H.
Qed.
