(** ShowFacts.v - numbers, tokens, segments and flame stacks as texts. *)
From Verif Require Import StrFacts SpecWhat WhatFacts SpecSeg GraphFacts.
From Verif Require Import Grammar.
From Coq Require Import Lia DecimalString DecimalZ.

(* ------------------------------------------------------------------ numbers *)
Definition dig (x : byte) : bool := num_byte x && negb (Byte.eqb x x2d).
Lemma uint_digs d : Forall (fun x => dig x = true) (String.list_byte_of_string (NilEmpty.string_of_uint d)).
Proof. induction d; cbn; constructor; auto. Qed.
Lemma nil_zero_digs d : exists x u, String.list_byte_of_string (NilZero.string_of_uint d) = x :: u /\ Forall (fun x => dig x = true) (x :: u).
Proof. destruct d; cbn; eexists _, _; (split; [reflexivity|]); constructor; try reflexivity; try apply uint_digs; constructor. Qed.
(** A sign or none, and digits. *)
Lemma itoa_digs n : exists g x u, itoa n = g ++ x :: u /\ (g = [] \/ g = [x2d]) /\ Forall (fun x => dig x = true) (x :: u).
Proof.
  unfold itoa. destruct (Z.to_int n) as [d|d]; cbn [NilZero.string_of_int]; destruct (nil_zero_digs d) as (x & u & E & F).
  - exists [], x, u. auto.
  - exists [x2d], x, u. split; auto. cbn. f_equal. exact E.
Qed.
Lemma itoa_inj m n : itoa m = itoa n -> m = n.
Proof.
  intros E. assert (N : num_byte x20 = false) by reflexivity. pose proof (number_back m x20 [] N) as A. rewrite E, number_back in A by exact N. congruence.
Qed.
Lemma itoa_len n : (1 <= length (itoa n))%nat.
Proof. destruct (itoa_digs n) as (g & x & u & -> & _). rewrite app_length. cbn. lia. Qed.
Lemma num_split m n x y a b : dig x = false -> dig y = false -> itoa m ++ x :: a = itoa n ++ y :: b -> m = n /\ x :: a = y :: b.
Proof.
  intros X Y E. destruct (itoa_digs m) as (g & z & u & Em & G & F), (itoa_digs n) as (h & w & v & En & H & K).
  assert (R : forall z u w v, Forall (fun x => dig x = true) (z :: u) -> Forall (fun x => dig x = true) (w :: v) -> (z :: u) ++ x :: a = (w :: v) ++ y :: b -> z :: u = w :: v /\ x :: a = y :: b).
  { intros z0 u0 w0 v0 F0 K0 E0. pose proof (span_nums dig _ x a F0 X) as S0. rewrite E0, (span_nums dig _ y b K0 Y) in S0. injection S0 as ? ? ? ?. split; congruence. }
  assert (Hd : forall z u t, Forall (fun x => dig x = true) (z :: u) -> x2d :: t <> (z :: u) ++ x :: a /\ x2d :: t <> (z :: u) ++ y :: b).
  { intros z0 u0 t F0. inversion F0 as [|? ? D]. split; cbn; intros Eq; assert (z0 = x2d) as -> by congruence; discriminate D. }
  rewrite Em, En, <- !app_assoc in E. destruct G as [-> | ->], H as [-> | ->]; cbn [app] in E.
  - destruct (R z u w v F K E) as [S1 S2]. split; auto. apply itoa_inj. rewrite Em, En. cbn. congruence.
  - exfalso. symmetry in E. now apply (Hd z u) in E.
  - exfalso. now apply (Hd w v) in E.
  - destruct (R z u w v F K ltac:(cbn; congruence)) as [S1 S2]. split; auto. apply itoa_inj. rewrite Em, En. cbn. congruence.
Qed.

(* ------------------------------------------------------------------ tokens, segments, entries *)
Lemma tok_bytes t a : tok_string t ++ a = x5b :: itoa (t_from t) ++ x2d :: itoa (t_to t) ++ x29 :: a.
Proof. unfold tok_string. rewrite <- !app_assoc. reflexivity. Qed.
Lemma tok_string_split t u a b : tok_string t ++ a = tok_string u ++ b -> t = u /\ a = b.
Proof.
  rewrite !tok_bytes. intros E. injection E as E. apply num_split in E as [E1 E]; [|reflexivity|reflexivity]. injection E as E.
  apply num_split in E as [E2 E]; [|reflexivity|reflexivity]. injection E as ->. destruct t, u. cbn in *. subst. auto.
Qed.
Lemma seg_string_inj v w : seg_string v = seg_string w -> v = w.
Proof.
  destruct v as [i t], w as [j u]. unfold seg_string. cbn [s_info s_tok]. intros E.
  set (mid := fun t : token => itoa (t_from t) ++ x2d :: itoa (t_to t)).
  assert (Q : forall i t, i ++ tok_string t = (i ++ [x5b]) ++ mid t ++ [x29]).
  { intros i0 t0. unfold tok_string, mid. rewrite <- !app_assoc. reflexivity. }
  rewrite !Q, !app_assoc in E. apply app_inj_tail in E as [E _].
  assert (Fn : forall t, Forall (fun x => num_byte x = true) (rev (mid t))).
  { intros t0. apply Forall_forall. intros x I. apply in_rev in I. unfold mid in I. pose proof (itoa_nums (t_from t0)) as F1. pose proof (itoa_nums (t_to t0)) as F2.
    rewrite Forall_forall in F1, F2. apply in_app_iff in I as [I|[<-|I] ]; auto. }
  apply (f_equal (@rev byte)) in E. rewrite !rev_app_distr in E. cbn [rev app] in E.
  pose proof (span_nums num_byte (rev (mid t)) x5b (rev i) (Fn t) eq_refl) as S0. rewrite E, (span_nums num_byte (rev (mid u)) x5b (rev j) (Fn u) eq_refl) in S0.
  injection S0 as S1 S2. apply (f_equal (@rev byte)) in S1, S2. rewrite !rev_involutive in S1, S2. subst j.
  assert (t = u) as ->; auto. unfold mid in S1. apply num_split in S1 as [S1 S3]; [|reflexivity|reflexivity]. injection S3 as S3. apply itoa_inj in S3. destruct t, u; cbn in *; congruence.
Qed.
Lemma entry_string_split e f : entry_string e = entry_string f -> e_level e = e_level f /\ e_enter e = e_enter f /\ e_info e = e_info f.
Proof.
  assert (Q : forall k t, exists x u, concat (repeat (lit ".") k) ++ lit "@ " ++ t = x :: u /\ dig x = false).
  { intros [|k] t; cbn; eexists _, _; split; reflexivity. }
  unfold entry_string. intros E. destruct (Q (Z.to_nat (e_level e)) (itoa (e_enter e) ++ lit " " ++ e_info e)) as (x & u & Ex & Dx).
  destruct (Q (Z.to_nat (e_level f)) (itoa (e_enter f) ++ lit " " ++ e_info f)) as (y & v & Ey & Dy). rewrite Ex, Ey in E.
  apply num_split in E as [El E]; auto. rewrite <- Ex, <- Ey, El in E. apply app_inv_head in E. apply (app_inv_head (lit "@ ")) in E. cbn [lit app] in E.
  apply (num_split _ _ x20 x20) in E as [Ee E]; [|reflexivity|reflexivity]. injection E as E. auto.
Qed.

(* ------------------------------------------------------------------ flame stacks *)
Fixpoint kid_lines (prefix : bytes) (j : Z) (k : list node) : bytes :=
  match k with [] => [] | c :: k' => stack_lines prefix j c ++ kid_lines prefix (j + 1) k' end.
Definition head_of (prefix : bytes) (i : Z) (s : segment) : bytes := prefix ++ itoa i ++ lit "." ++ seg_string s.
Lemma stack_lines_eq prefix i s k : stack_lines prefix i (Node s k) =
  head_of prefix i s ++ lit " " ++ itoa (tok_len (s_tok s)) ++ [x0a] ++ kid_lines (head_of prefix i s ++ lit ";") 1 k.
Proof.
  cbn [stack_lines]. unfold head_of. set (P := prefix ++ itoa i ++ lit "." ++ seg_string s). do 4 f_equal.
  assert (G : forall k j, (fix kids (j : Z) (k : list node) {struct k} : bytes := match k with [] => [] | c :: k' => stack_lines (P ++ lit ";") j c ++ kids (j + 1) k' end) j k = kid_lines (P ++ lit ";") j k).
  { clear k. induction k as [|c k IH]; intros j; cbn; auto. now rewrite IH. }
  apply G.
Qed.
Definition begins_with (p a : bytes) : Prop := exists t, a = p ++ t.
Lemma stack_head prefix i n : exists t, stack_lines prefix i n = prefix ++ itoa i ++ x2e :: t.
Proof. destruct n as [s k]. rewrite stack_lines_eq. unfold head_of. rewrite <- !app_assoc. eexists. reflexivity. Qed.

Fixpoint infos (n : node) : list bytes := match n with Node s k => s_info s :: flat_map infos k end.
Definition one_line (n : node) : Prop := forall i, In i (infos n) -> ~ In x0a i.
Lemma line_split a b u v : ~ In x0a a -> ~ In x0a b -> a ++ x0a :: u = b ++ x0a :: v -> a = b /\ u = v.
Proof.
  revert b. induction a as [|x a IH]; intros [|y b] A B E; cbn in E.
  - injection E as E. auto.
  - exfalso. apply B. left. congruence.
  - exfalso. apply A. left. congruence.
  - injection E as -> E. apply IH in E as [-> ->]; auto; [intros I; apply A; right; auto|intros I; apply B; right; auto].
Qed.
Lemma nums_no_line l : Forall (fun x => num_byte x = true) l -> ~ In x0a l.
Proof. intros F I. rewrite Forall_forall in F. apply F in I. discriminate. Qed.
Lemma seg_line s : ~ In x0a (s_info s) -> ~ In x0a (seg_string s).
Proof.
  unfold seg_string, tok_string. intros N. rewrite !in_app_iff. pose proof (nums_no_line _ (itoa_nums (t_from (s_tok s)))). pose proof (nums_no_line _ (itoa_nums (t_to (s_tok s)))).
  cbn. intuition discriminate.
Qed.
Lemma tail_nums a b m n : a ++ x20 :: itoa m = b ++ x20 :: itoa n -> a = b.
Proof.
  assert (N : forall n x, In x (rev (itoa n)) -> num_byte x = true). { intros k x I. apply in_rev in I. pose proof (itoa_nums k) as F. rewrite Forall_forall in F. auto. }
  intros E. apply (f_equal (@rev byte)) in E. rewrite !rev_app_distr in E. cbn [rev] in E. rewrite <- !app_assoc in E. cbn [app] in E.
  pose proof (span_nums num_byte (rev (itoa m)) x20 (rev a) ltac:(apply Forall_forall; apply N) eq_refl) as X.
  rewrite E, span_nums in X; [|apply Forall_forall; apply N|reflexivity]. injection X as X1 X2. apply (f_equal (@rev byte)) in X2. now rewrite !rev_involutive in X2.
Qed.
Lemma flame_back n : forall prefix i m a b, one_line n -> one_line m ->
  ~ begins_with (head_of prefix i (n_seg n)) a -> ~ begins_with (head_of prefix i (n_seg m)) b ->
  stack_lines prefix i n ++ a = stack_lines prefix i m ++ b -> n = m /\ a = b.
Proof.
  induction n as [s k IH] using node_ind'. intros prefix i [s2 k2] a b O1 O2 A B E. cbn [n_seg] in A, B. rewrite !stack_lines_eq in E.
  unfold head_of at 1 3 in E. rewrite <- !app_assoc in E. apply app_inv_head, app_inv_head, (app_inv_head (lit ".")) in E.
  assert (L : forall s c r, seg_string s ++ lit " " ++ itoa c ++ [x0a] ++ r = (seg_string s ++ x20 :: itoa c) ++ x0a :: r).
  { intros s0 c r. rewrite <- app_assoc. reflexivity. }
  rewrite !L in E. apply line_split in E as [E1 E2].
  2,3: rewrite in_app_iff; intros [I|[I|I] ]; [revert I; apply seg_line|discriminate|revert I; apply nums_no_line, itoa_nums]; auto.
  2: apply O1; left; auto. 2: apply O2; left; auto.
  apply tail_nums, seg_string_inj in E1. subst s2. set (P := head_of prefix i s) in *.
  enough (H : forall k k2 j, Forall (fun n => forall prefix i m a b, one_line n -> one_line m -> ~ begins_with (head_of prefix i (n_seg n)) a -> ~ begins_with (head_of prefix i (n_seg m)) b ->
      stack_lines prefix i n ++ a = stack_lines prefix i m ++ b -> n = m /\ a = b) k -> (forall c, In c k -> one_line c) -> (forall c, In c k2 -> one_line c) ->
      kid_lines (P ++ lit ";") j k ++ a = kid_lines (P ++ lit ";") j k2 ++ b -> k = k2 /\ a = b).
  { destruct (H k k2 1 (proj2 (Forall_forall _ _) IH)) as [-> ->]; auto.
    - intros c I x X. apply O1. right. apply in_flat_map. eauto.
    - intros c I x X. apply O2. right. apply in_flat_map. eauto. }
  clear k k2 IH O1 O2 E2. induction k as [|c k IHk]; intros [|c2 k2] j F K K2 E; cbn [kid_lines app] in E.
  - auto.
  - exfalso. apply A. destruct (stack_head (P ++ lit ";") j c2) as (t & Et). rewrite Et in E. rewrite <- !app_assoc in E. eexists. exact E.
  - exfalso. apply B. destruct (stack_head (P ++ lit ";") j c) as (t & Et). rewrite Et in E. rewrite <- !app_assoc in E. eexists. symmetry. exact E.
  - inversion F as [|? ? Fc Fk]. subst. rewrite <- !app_assoc in E.
    assert (Off : forall k a s, ~ begins_with P a -> ~ begins_with (head_of (P ++ lit ";") j s) (kid_lines (P ++ lit ";") (j + 1) k ++ a)).
    { intros k0 a0 s0 N [t Et]. destruct k0 as [|c0 k0].
      - apply N. cbn in Et. unfold head_of in Et. rewrite <- !app_assoc in Et. eexists. exact Et.
      - cbn [kid_lines] in Et. destruct (stack_head (P ++ lit ";") (j + 1) c0) as (t0 & E0). unfold head_of in Et. rewrite E0 in Et. rewrite <- !app_assoc in Et. apply app_inv_head, (app_inv_head (lit ";")) in Et.
        apply num_split in Et as [Et _]; [lia|reflexivity|reflexivity]. }
    apply Fc in E as [-> E]; auto; [|apply K; left; auto|apply K2; left; auto].
    apply IHk in E as [-> ->]; auto; [intros x I; apply K; right; auto|intros x I; apply K2; right; auto].
Qed.

(* ------------------------------------------------------------------ widths *)
(** The lines of a flame stack, as stack and number. *)
Fixpoint stacks (prefix : bytes) (i : Z) (n : node) : list (bytes * Z) :=
  match n with
  | Node s k => (head_of prefix i s, tok_len (s_tok s)) ::
      (fix kids (j : Z) (k : list node) : list (bytes * Z) :=
         match k with [] => [] | c :: k' => stacks (head_of prefix i s ++ lit ";") j c ++ kids (j + 1) k' end) 1 k
  end.
Fixpoint kid_stacks (prefix : bytes) (j : Z) (k : list node) : list (bytes * Z) :=
  match k with [] => [] | c :: k' => stacks prefix j c ++ kid_stacks prefix (j + 1) k' end.
Lemma stacks_eq prefix i s k : stacks prefix i (Node s k) = (head_of prefix i s, tok_len (s_tok s)) :: kid_stacks (head_of prefix i s ++ lit ";") 1 k.
Proof.
  cbn [stacks]. f_equal. set (P := head_of prefix i s ++ lit ";").
  assert (G : forall j, (fix kids (j : Z) (k : list node) : list (bytes * Z) := match k with [] => [] | c :: k' => stacks P j c ++ kids (j + 1) k' end) j k = kid_stacks P j k).
  { induction k as [|c k IH]; intros j; cbn; auto. now rewrite IH. }
  apply G.
Qed.
Definition stack_line (l : bytes * Z) : bytes := fst l ++ lit " " ++ itoa (snd l) ++ [x0a].
Lemma stacks_lines n : forall prefix i, stack_lines prefix i n = flat_map stack_line (stacks prefix i n).
Proof.
  induction n as [s k IH] using node_ind'. intros prefix i. rewrite stack_lines_eq, stacks_eq. cbn [flat_map stack_line fst snd]. unfold stack_line at 1. cbn [fst snd]. rewrite <- !app_assoc. do 4 f_equal.
  generalize (head_of prefix i s ++ lit ";"). intros P. generalize 1. induction k as [|c k IHk]; intros j; cbn; auto. rewrite flat_map_app. f_equal; [apply IH; left; auto|apply IHk; intros; apply IH; right; auto].
Qed.
(** How flamegraph.pl reads such lines: a frame, given by the names from the root to it, is as wide as the numbers of all lines
    that begin with these names add up to. *)
Definition in_frame (f stack : bytes) : bool := bytes_eqb stack f || has_prefix stack (f ++ lit ";").
Definition frame_width (f : bytes) (l : list (bytes * Z)) : Z := fold_right (fun x w => (if in_frame f (fst x) then snd x else 0) + w) 0 l.
Definition sum_of (l : list Z) : Z := fold_right Z.add 0 l.
(** [leads i n p m]: the path [p] (numbers of children and segments) leads from [n], which is child [i], to [m]. *)
Inductive leads : Z -> node -> list (Z * segment) -> node -> Prop :=
| leads_here i s k : leads i (Node s k) [(i, s)] (Node s k)
| leads_down i s k j c p m : nth_error k j = Some c -> leads (Z.of_nat j + 1) c p m -> leads i (Node s k) ((i, s) :: p) m.
Lemma width_app f a b : frame_width f (a ++ b) = frame_width f a + frame_width f b.
Proof. unfold frame_width. induction a as [|x a IH]; cbn [app fold_right]; [lia|]. rewrite IH. lia. Qed.
Lemma in_frame_iff f t : in_frame f t = true <-> t = f \/ begins_with (f ++ lit ";") t.
Proof.
  unfold in_frame. rewrite Bool.orb_true_iff. rewrite bytes_eqb_eq. split; intros [H|H]; auto; right; [apply has_prefix_iff in H|apply has_prefix_iff]; auto.
Qed.
Lemma stacks_begin n : forall prefix i x, In x (stacks prefix i n) -> in_frame (head_of prefix i (n_seg n)) (fst x) = true.
Proof.
  induction n as [s k IH] using node_ind'. intros prefix i x I. rewrite stacks_eq in I. apply in_frame_iff. destruct I as [<-|I]; [left; reflexivity|right]. cbn [n_seg].
  set (P := head_of prefix i s) in *. revert I. generalize 1. induction k as [|c k IHk]; intros j I; cbn in I; [contradiction|]. apply in_app_iff in I as [I|I].
  - apply IH in I; [|left; auto]. apply in_frame_iff in I as [E|[t E] ]; unfold head_of in E; rewrite <- !app_assoc in E; rewrite E.
    + eexists. rewrite <- app_assoc. reflexivity.
    + eexists. rewrite <- app_assoc. reflexivity.
  - apply IHk in I; auto. intros; apply IH; auto. right; auto.
Qed.
Lemma kid_begin prefix k : forall j x, In x (kid_stacks prefix j k) -> exists i t, j <= i < j + Z.of_nat (length k) /\ fst x = prefix ++ itoa i ++ x2e :: t.
Proof.
  induction k as [|c k IH]; intros j x I; cbn in I; [contradiction|]. cbn [length]. apply in_app_iff in I as [I|I].
  - apply stacks_begin in I. apply in_frame_iff in I. exists j. unfold head_of in I. destruct I as [E|[t E] ]; rewrite E; rewrite <- ?app_assoc; eexists; (split; [lia|reflexivity]).
  - destruct (IH _ _ I) as (i & t & B & E). exists i, t. split; [lia|auto].
Qed.
Lemma stacks_total n : forall prefix i, frame_width (head_of prefix i (n_seg n)) (stacks prefix i n) = sum_of (map (fun m => tok_len (n_tok m)) (nodes n)).
Proof.
  intros prefix i. assert (E : map snd (stacks prefix i n) = map (fun m => tok_len (n_tok m)) (nodes n)).
  { revert prefix i. induction n as [s k IH] using node_ind'. intros prefix i. rewrite stacks_eq. cbn. f_equal. generalize (head_of prefix i s ++ lit ";"). intros P. generalize 1.
    induction k as [|c k IHk]; intros j; cbn; auto. rewrite !map_app. f_equal; [apply IH; left; auto|apply IHk; intros; apply IH; right; auto]. }
  rewrite <- E. pose proof (stacks_begin n prefix i) as B. revert B. generalize (head_of prefix i (n_seg n)). intros f. generalize (stacks prefix i n). clear E.
  induction l as [|x l IH]; intros B; cbn; auto. rewrite (B x (or_introl eq_refl)). unfold frame_width in IH. rewrite IH; [reflexivity|]. intros; apply B; right; auto.
Qed.
Lemma width_zero f l : (forall x, In x l -> in_frame f (fst x) = false) -> frame_width f l = 0.
Proof. induction l as [|x l IH]; intros H; cbn; auto. rewrite H by (left; auto). unfold frame_width in IH. rewrite IH; auto. intros; apply H; right; auto. Qed.
Lemma joined_cons i s p : joined ((i, s) :: p) = itoa i ++ lit "." ++ seg_string s ++ match p with [] => [] | _ => lit ";" ++ joined p end.
Proof. destruct p; cbn [joined]; rewrite ?app_nil_r; reflexivity. Qed.
Lemma leads_joined i n p m : leads i n p m -> exists t, joined p = itoa i ++ x2e :: t.
Proof. destruct 1; rewrite joined_cons; eexists; reflexivity. Qed.
Lemma flame_width i n p m : leads i n p m -> forall prefix, frame_width (prefix ++ joined p) (stacks prefix i n) = sum_of (map (fun m => tok_len (n_tok m)) (nodes m)).
Proof.
  induction 1 as [i s k|i s k j c p m N Ld IH]; intros prefix.
  - exact (stacks_total (Node s k) prefix i).
  - rewrite joined_cons. destruct (leads_joined _ _ _ _ Ld) as (t & Ej). destruct p as [|[i0 s0] p0] eqn:Ep; [inversion Ld|]. rewrite <- Ep in *. clear Ep i0 s0 p0.
    replace (prefix ++ itoa i ++ lit "." ++ seg_string s ++ lit ";" ++ joined p) with ((head_of prefix i s ++ lit ";") ++ joined p) by (unfold head_of; rewrite <- !app_assoc; reflexivity).
    rewrite stacks_eq. set (P := head_of prefix i s) in *. cbn [frame_width fold_right fst snd].
    replace (in_frame ((P ++ lit ";") ++ joined p) P) with false.
    2: { symmetry. apply Bool.not_true_is_false. intros F. apply in_frame_iff in F as [F|[u F] ]; apply (f_equal (@length byte)) in F; rewrite !app_length in F; cbn in F; lia. }
    change (0 + frame_width ((P ++ lit ";") ++ joined p) (kid_stacks (P ++ lit ";") 1 k) = sum_of (map (fun m => tok_len (n_tok m)) (nodes m))). rewrite Z.add_0_l. set (Q := P ++ lit ";") in *.
    apply nth_error_split in N as (k1 & k2 & -> & Len).
    assert (G : forall k1 b, kid_stacks Q b (k1 ++ c :: k2) = kid_stacks Q b k1 ++ stacks Q (b + Z.of_nat (length k1)) c ++ kid_stacks Q (b + Z.of_nat (length k1) + 1) k2).
    { clear. induction k1 as [|x k1 IH]; intros b; cbn; [rewrite Z.add_0_r; reflexivity|]. rewrite IH, <- app_assoc. do 3 f_equal; [f_equal; lia|f_equal; lia]. }
    assert (Z0 : forall b l, (forall i, b <= i < b + Z.of_nat (length l) -> i <> Z.of_nat j + 1) -> frame_width (Q ++ joined p) (kid_stacks Q b l) = 0).
    { intros b l Hn. apply width_zero. intros x I. apply Bool.not_true_is_false. intros F. destruct (kid_begin Q l b x I) as (i1 & t1 & B1 & E1).
      assert (exists u, Q ++ itoa i1 ++ x2e :: t1 = Q ++ itoa (Z.of_nat j + 1) ++ x2e :: u) as [u Eu].
      { rewrite <- E1. apply in_frame_iff in F as [F|[u F] ]; rewrite F, Ej; rewrite <- ?app_assoc; eexists; reflexivity. }
      apply app_inv_head, num_split in Eu as [Eu _]; [|reflexivity|reflexivity]. now apply (Hn i1) in B1. }
    rewrite G, !width_app, Z0, Z0; [|intros; lia|intros; lia]. rewrite <- (IH Q). replace (1 + Z.of_nat (length k1)) with (Z.of_nat j + 1) by lia. lia.
Qed.
