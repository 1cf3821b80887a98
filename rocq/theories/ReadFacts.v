(** ReadFacts.v - read.go: runes, bools, numbers. *)
From Verif Require Export ScannerRevFacts ReadVal.

(* -------------------------------------------------------------- ReadRune (C16) *)

Lemma read_rune_yes s a b v c l : at_split s a b -> chunked b ((v, c) :: l) -> v <> RuneError ->
  read_rune s = Ok ((v, None), moveto (pos (sc s) + slen c) s).
Proof.
  intros H C N. unfold read_rune. tail_of H. rewrite (chunked_decode _ _ _ _ C).
  replace (v =? RuneError) with false by lia.
  rewrite (bind_ok _ _ _ _ _ (move_chunk _ _ _ _ _ _ H C)). reflexivity.
Qed.

Lemma read_rune_no s a b l : at_split s a b -> chunked b l ->
  (l = [] \/ exists c l', l = (RuneError, c) :: l') ->
  read_rune s = Ok ((RuneError, Some (EReadError (pos (sc s)) (lit "rune"))), s).
Proof.
  intros H C N. unfold read_rune. tail_of H.
  assert (D : fst (decode_rune b) = RuneError).
  { destruct N as [->|(c & l' & ->)].
    - apply chunked_nil_r in C. subst. reflexivity.
    - rewrite (chunked_decode _ _ _ _ C). reflexivity. }
  destruct (decode_rune b) as [r i]. cbn in D. subst r. reflexivity.
Qed.

Lemma rev_read_rune_yes s a b v c : at_split s a b -> last_chunk a v c -> v <> RuneError ->
  rev_read_rune s = Ok ((v, None), moveto (pos (sc s) - slen c) s).
Proof.
  intros H C N. unfold rev_read_rune. head_of H. apply last_chunk_decode in C as (D & (h & ->) & _).
  rewrite D. replace (v =? RuneError) with false by lia.
  rewrite (bind_ok _ _ _ _ _ (move_back _ _ _ _ H)). reflexivity.
Qed.

Lemma rev_read_rune_no s a b : at_split s a b -> (a = [] \/ exists c, last_chunk a RuneError c) ->
  rev_read_rune s = Ok ((RuneError, Some (EReadError (pos (sc s)) (lit "rune"))), s).
Proof.
  intros H N. unfold rev_read_rune. head_of H.
  assert (D : fst (decode_last_rune a) = RuneError).
  { destruct N as [->|(c & C)]; [reflexivity|]. apply last_chunk_decode in C as (D & _). rewrite D. reflexivity. }
  destruct (decode_last_rune a) as [r i]. cbn in D. subst r. reflexivity.
Qed.

(* --------------------------------------------------------------- ReadBool (C23) *)

Lemma if_any_cases s a b xs : at_split s a b ->
  (exists x t, In x xs /\ b = x ++ t /\ yes_by (if_any xs) s (slen x)) \/
  ((forall x, In x xs -> forall t, b <> x ++ t) /\ no (if_any xs) s).
Proof.
  intros H. induction xs as [|x xs IH].
  - right. split; [intros x []|reflexivity].
  - destruct (has_prefix b x) eqn:E.
    + apply has_prefix_iff in E as [t ->]. left. exists x, t.
      split; [left; reflexivity|]. split; [reflexivity|].
      apply (if_any_yes s a x xs [] (x ++ t) H); [intros y []|eauto].
    + rewrite has_prefix_false in E.
      assert (Q : if_any (x :: xs) s = if_any xs s).
      { cbn [if_any]. rewrite (bind_ok _ _ _ _ _ (if_str_no _ _ _ x H E)). reflexivity. }
      destruct IH as [(y & t & I & -> & Y)|[N Y]].
      * left. exists y, t. split; [right; exact I|]. split; auto. unfold yes_by in *. rewrite Q. exact Y.
      * right. split.
        -- intros y [->|I]; [exact E|apply N; exact I].
        -- unfold no in *. rewrite Q. exact Y.
Qed.

Lemma prefix_clash (x y t u : bytes) : x ++ t = y ++ u -> has_prefix x y = false -> has_prefix y x = false -> False.
Proof.
  intros E X Y. rewrite has_prefix_false in X, Y.
  destruct (Nat.le_ge_cases (length x) (length y)) as [L|L].
  - destruct (app_split_le _ _ _ _ E L) as (m & Em & _). exact (Y m Em).
  - symmetry in E. destruct (app_split_le _ _ _ _ E L) as (m & Em & _). exact (X m Em).
Qed.

(** [ts] spell true, [fs] spell false, none is a prefix of another. *)
Lemma read_bool_lists s a b (ts fs : list bytes) (m : M (bool * option err)) :
  at_split s a b ->
  (forall x y, In x (ts ++ fs) -> In y (ts ++ fs) -> x = y \/ (has_prefix x y = false /\ has_prefix y x = false)) ->
  m s = bind (if_any ts) (fun t => if t then ret (true, None) else
        bind (if_any fs) (fun f => if f then ret (false, None) else
        bind (error_for (lit "bool")) (fun e => ret (false, e)))) s ->
  (forall x t, In x ts -> b = x ++ t -> m s = Ok ((true, None), moveto (pos (sc s) + slen x) s)) /\
  (forall x t, In x fs -> b = x ++ t -> (forall y, In y ts -> x <> y) ->
     m s = Ok ((false, None), moveto (pos (sc s) + slen x) s)) /\
  ((forall x t, In x (ts ++ fs) -> b <> x ++ t) ->
     m s = Ok ((false, Some (EReadError (pos (sc s)) (lit "bool"))), s)).
Proof.
  intros H PF Hm. split; [|split].
  - intros x t I ->. rewrite Hm.
    destruct (if_any_cases _ _ _ ts H) as [(y & u & J & E & Y)|[N _]].
    + rewrite (bind_ok _ _ _ _ _ Y).
      destruct (PF x y) as [->|[P1 P2]]; try (apply in_app_iff; auto); [reflexivity|].
      destruct (prefix_clash _ _ _ _ E P1 P2).
    + destruct (N x I t eq_refl).
  - intros x t I -> Nx. rewrite Hm.
    destruct (if_any_cases _ _ _ ts H) as [(y & u & J & E & Y)|[N Y]].
    + destruct (PF x y) as [->|[P1 P2]]; try (apply in_app_iff; auto).
      * destruct (Nx y J eq_refl).
      * destruct (prefix_clash _ _ _ _ E P1 P2).
    + rewrite (bind_ok _ _ _ _ _ Y).
      destruct (if_any_cases _ _ _ fs H) as [(y & u & J & E & Y')|[N' _]].
      * rewrite (bind_ok _ _ _ _ _ Y').
        destruct (PF x y) as [->|[P1 P2]]; try (apply in_app_iff; auto); [reflexivity|].
        destruct (prefix_clash _ _ _ _ E P1 P2).
      * destruct (N' x I t eq_refl).
  - intros N. rewrite Hm.
    rewrite (bind_ok _ _ _ _ _ (if_any_no s a b ts H (fun x I t => N x t (in_or_app _ _ _ (or_introl I))))).
    rewrite (bind_ok _ _ _ _ _ (if_any_no s a b fs H (fun x I t => N x t (in_or_app _ _ _ (or_intror I))))).
    reflexivity.
Qed.

Lemma if_str_if_any x s : if_str x s = if_any [x] s.
Proof.
  cbn [if_any]. unfold bind. destruct (if_str x s) as [[ok s']| |]; auto. destruct ok; reflexivity.
Qed.

Lemma read_bool_strs_any x y s : read_bool_strs x y s =
  bind (if_any [x]) (fun t => if t then ret (true, None) else
        bind (if_any [y]) (fun f => if f then ret (false, None) else
        bind (error_for (lit "bool")) (fun e => ret (false, e)))) s.
Proof.
  unfold read_bool_strs, bind. rewrite if_str_if_any. destruct (if_any [x] s) as [[ok s']| |]; auto.
  destruct ok; auto. rewrite if_str_if_any. reflexivity.
Qed.

Ltac pf := cbn [In app]; intros ? ? I J;
  repeat (destruct I as [<-|I]); try destruct I;
  repeat (destruct J as [<-|J]); try destruct J;
  first [left; reflexivity | right; split; reflexivity].

Lemma read_bool_spec s a b format l : at_split s a b -> bool_spellings format = Some l ->
  (forall x v t, In (x, v) l -> b = x ++ t ->
     read_bool format s = Ok ((v, None), moveto (pos (sc s) + slen x) s)) /\
  ((forall x v t, In (x, v) l -> b <> x ++ t) ->
     read_bool format s = Ok ((false, Some (EReadError (pos (sc s)) (lit "bool"))), s)).
Proof.
  intros H. unfold bool_spellings, read_bool.
  assert (G : forall ts fs m,
    (forall x y, In x (ts ++ fs) -> In y (ts ++ fs) -> x = y \/ (has_prefix x y = false /\ has_prefix y x = false)) ->
    (forall x y, In x fs -> In y ts -> x <> y) ->
    m s = bind (if_any ts) (fun t => if t then ret (true, None) else
        bind (if_any fs) (fun f => if f then ret (false, None) else
        bind (error_for (lit "bool")) (fun e => ret (false, e)))) s ->
    (forall x v t, In (x, v) (map (fun x => (x, true)) ts ++ map (fun x => (x, false)) fs) -> b = x ++ t ->
       m s = Ok ((v, None), moveto (pos (sc s) + slen x) s)) /\
    ((forall x v t, In (x, v) (map (fun x => (x, true)) ts ++ map (fun x => (x, false)) fs) -> b <> x ++ t) ->
       m s = Ok ((false, Some (EReadError (pos (sc s)) (lit "bool"))), s))).
  { intros ts fs m PF ND Hm. destruct (read_bool_lists s a b ts fs m H PF Hm) as (A & B & C). split.
    - intros x v t I. apply in_app_iff in I as [I|I]; apply in_map_iff in I as (y & E & I); injection E as <- <-.
      + apply A. exact I.
      + intros Eb. apply (B y t I Eb). intros z J. apply ND; auto.
    - intros N. apply C. intros x t I. apply in_app_iff in I as [I|I].
      + apply (N x true t). apply in_app_iff. left. apply in_map_iff. eauto.
      + apply (N x false t). apply in_app_iff. right. apply in_map_iff. eauto. }
  destruct (bytes_eqb format [] || bytes_eqb format (lit "*")).
  { intros [= <-]. apply (G [lit "true"; lit "True"; lit "TRUE"] [lit "false"; lit "False"; lit "FALSE"]).
    - pf.
    - cbn [In]; intros ? ? I J; repeat (destruct I as [<-|I]); try destruct I;
      repeat (destruct J as [<-|J]); try destruct J; discriminate.
    - reflexivity. }
  destruct (bytes_eqb format (lit "l")).
  { intros [= <-]. apply (G [lit "true"] [lit "false"]); [pf| |apply read_bool_strs_any].
    cbn [In]; intros ? ? [<-|[]] [<-|[]]; discriminate. }
  destruct (bytes_eqb format (lit "U")).
  { intros [= <-]. apply (G [lit "TRUE"] [lit "FALSE"]); [pf| |apply read_bool_strs_any].
    cbn [In]; intros ? ? [<-|[]] [<-|[]]; discriminate. }
  destruct (bytes_eqb format (lit "Cc")).
  { intros [= <-]. apply (G [lit "True"] [lit "False"]); [pf| |apply read_bool_strs_any].
    cbn [In]; intros ? ? [<-|[]] [<-|[]]; discriminate. }
  discriminate.
Qed.

Lemma read_bool_bad format s : bool_spellings format = None ->
  read_bool format s = Ok ((false, Some (EOther (lit "invalid format"))), s).
Proof.
  unfold bool_spellings, read_bool.
  destruct (bytes_eqb format [] || bytes_eqb format (lit "*")); [discriminate|].
  destruct (bytes_eqb format (lit "l")); [discriminate|].
  destruct (bytes_eqb format (lit "U")); [discriminate|].
  destruct (bytes_eqb format (lit "Cc")); [discriminate|]. reflexivity.
Qed.

(* ----------------------------------------------------------------- numbers *)

Lemma digit_range base d v : is_base base -> digit_val base d = Some v ->
  0 <= v < base /\ bz d < 128.
Proof.
  intros B. unfold digit_val. pose proof (bz_range d).
  destruct ((48 <=? bz d) && (bz d <=? 57)) eqn:E1.
  { destruct (_ <? base) eqn:E; intros [= <-]. unfold is_base in B. lia. }
  destruct ((97 <=? bz d) && (bz d <=? 102)) eqn:E2.
  { destruct (_ <? base) eqn:E; intros [= <-]. unfold is_base in B. lia. }
  destruct ((65 <=? bz d) && (bz d <=? 70)) eqn:E3.
  { destruct (_ <? base) eqn:E; intros [= <-]. unfold is_base in B. lia. }
  rewrite Z.ltb_irrefl. discriminate.
Qed.

Lemma char_func_base base : is_base base -> exists cf, char_func base = Some cf.
Proof. intros [->|[->| ->]]; eexists; reflexivity. Qed.

Lemma char_func_some base cf : char_func base = Some cf -> is_base base.
Proof.
  unfold char_func, is_base. destruct (base =? 8) eqn:E1; [lia|].
  destruct (base =? 10) eqn:E2; [lia|]. destruct (base =? 16) eqn:E3; [lia|discriminate].
Qed.

Lemma char_func_digit base cf d : char_func base = Some cf ->
  cf (bz d) = match digit_val base d with Some v => v | None => -1 end.
Proof.
  intros H. pose proof (char_func_some _ _ H) as B. pose proof (bz_range d).
  unfold char_func in H. unfold digit_val.
  destruct ((48 <=? bz d) && (bz d <=? 57)) eqn:E1;
  destruct ((97 <=? bz d) && (bz d <=? 102)) eqn:E2;
  destruct ((65 <=? bz d) && (bz d <=? 70)) eqn:E3;
  destruct B as [->|[->| ->]]; cbn [char_func Z.eqb Pos.eqb] in H; injection H as <-;
  unfold oct_value, dec_value, hex_value, in_range; rewrite ?E1, ?E2, ?E3;
  repeat match goal with |- context [if ?c then _ else _] => destruct c eqn:? end; lia.
Qed.

Lemma char_func_high base cf r : char_func base = Some cf -> 128 <= r -> cf r = -1.
Proof.
  intros H. pose proof (char_func_some _ _ H) as B. intros Hr.
  unfold char_func in H.
  destruct B as [->|[->| ->]]; cbn in H; injection H as <-;
  unfold oct_value, dec_value, hex_value, in_range;
  repeat match goal with |- context [if ?c then _ else _] => destruct c eqn:? end; lia.
Qed.

(** ASCII text is its own chunking. *)
Lemma chunked_ascii ds t lt : Forall (fun d => bz d < 128) ds -> chunked t lt ->
  chunked (ds ++ t) (map (fun d => (bz d, [d])) ds ++ lt).
Proof.
  intros F C. induction F as [|d ds Hd F IH]; [exact C|].
  pose proof (bz_range d). cbn [app map].
  assert (U : utf8 (bz d) = [d]).
  { unfold utf8. replace (bz d <? 128) with true by lia. rewrite zb_bz. reflexivity. }
  change (d :: ds ++ t) with ([d] ++ (ds ++ t)). rewrite <- U.
  apply ck_rune; auto. unfold is_scalar. lia.
Qed.

Lemma chunked_ascii1 d t lt : bz d < 128 -> chunked t lt -> chunked (d :: t) ((bz d, [d]) :: lt).
Proof. intros H C. apply (chunked_ascii [d] t lt); auto. Qed.

Lemma utf8_ascii v : 0 <= v < 128 -> utf8 v = [zb v].
Proof. intros H. unfold utf8. replace (v <? 128) with true by lia. reflexivity. Qed.

(** The first rune of a text decides whether a digit stands there. *)
Lemma no_digit_chunk base cf t v c l : char_func base = Some cf -> no_digit_at base t ->
  chunked t ((v, c) :: l) -> cf v = -1.
Proof.
  intros H N C. apply chunked_cons_inv in C as (u & -> & _ & _ & Nc & K).
  destruct (Z_lt_ge_dec v 128) as [Hv|Hv]; [|apply (char_func_high _ _ _ H); lia].
  destruct K as [[Hs ->]|[-> _]]; [|unfold RuneError in Hv; lia].
  assert (0 <= v) by (unfold is_scalar in Hs; lia).
  rewrite utf8_ascii in N by lia. specialize (N (zb v) u eq_refl).
  pose proof (char_func_digit base cf (zb v) H) as D. rewrite bz_zb in D by lia.
  rewrite D. destruct (digit_val base (zb v)) as [x|] eqn:E; auto. exfalso. apply N. exists x. exact E.
Qed.

Definition asc (ds : bytes) : list (Z * bytes) := map (fun d => (bz d, [d])) ds.

Lemma horner_mono base acc ds : is_base base -> 0 <= acc -> Forall (is_digit base) ds ->
  acc <= horner base acc ds.
Proof.
  intros B. revert acc. induction ds as [|d ds IH]; intros acc H F; cbn [horner]; [lia|].
  inversion F as [|? ? [v Hv] F']; subst. rewrite Hv.
  pose proof (digit_range _ _ _ B Hv) as [R _].
  assert (B2 : 8 <= base) by (unfold is_base in B; lia).
  assert (acc <= acc * base + v) by nia.
  specialize (IH (acc * base + v) ltac:(nia) F'). lia.
Qed.

Lemma horner_app base ds es : forall acc, horner base acc (ds ++ es) = horner base (horner base acc ds) es.
Proof. induction ds as [|d ds IH]; intros acc; cbn; auto. Qed.

Definition last_i (i n : Z) (ds : bytes) : Z := match ds with [] => n | _ => i + slen ds - 1 end.

Lemma read_uint_loop_run base cf mx ds lt : char_func base = Some cf -> mx < 2 ^ 64 ->
  Forall (is_digit base) ds -> forall i u n, 0 <= u -> horner base u ds <= mx ->
  read_uint_loop cf base mx (indexed i (asc ds ++ lt)) u n
  = read_uint_loop cf base mx (indexed (i + slen ds) lt) (horner base u ds) (last_i i n ds).
Proof.
  intros Hc Hm F. pose proof (char_func_some _ _ Hc) as B.
  induction F as [|d ds [v Hv] F IH]; intros i u n Hu Hh.
  - cbn. rewrite Z.add_0_r. reflexivity.
  - pose proof (digit_range _ _ _ B Hv) as [R _].
    cbn [asc map app indexed read_uint_loop horner] in *. rewrite (char_func_digit _ _ d Hc), Hv in *.
    replace (v =? -1) with false by lia.
    assert (B2 : 8 <= base) by (unfold is_base in B; lia).
    assert (M : u * base + v <= horner base (u * base + v) ds) by (apply horner_mono; auto; nia).
    rewrite (wrapu64_id (u * base)) by nia. rewrite wrapu64_id by nia.
    replace (u * base + v <? u) with false by nia.
    replace (mx <? u * base + v) with false by lia. cbn [orb].
    fold (asc ds). rewrite IH by (auto; nia).
    rewrite (slen_cons d ds). change (slen [d]) with 1.
    f_equal; [f_equal; lia|].
    unfold last_i. destruct ds as [|d' ds]; [cbn; lia|]. rewrite !slen_cons. lia.
Qed.

Lemma no_digit_stop_u base cf mx t lt i u n : char_func base = Some cf -> no_digit_at base t ->
  chunked t lt -> read_uint_loop cf base mx (indexed i lt) u n = (u, n).
Proof.
  intros H N C. destruct lt as [|[v c] lt]; [reflexivity|].
  cbn [indexed read_uint_loop]. rewrite (no_digit_chunk _ _ _ _ _ _ H N C). reflexivity.
Qed.

Lemma over_stop_u base cf mx d t lt i u n v : char_func base = Some cf -> digit_val base d = Some v ->
  chunked (d :: t) lt -> 0 <= u <= mx -> mx < 2 ^ 32 -> mx < u * base + v ->
  read_uint_loop cf base mx (indexed i lt) u n = (u, n).
Proof.
  intros H Hv C Hu Hm Ho. pose proof (char_func_some _ _ H) as B.
  pose proof (digit_range _ _ _ B Hv) as [R Ra].
  destruct (chunked_exists t) as [l' Cl'].
  pose proof (chunked_ascii1 d t l' Ra Cl') as C'.
  rewrite (chunked_fun _ _ _ C C').
  cbn [indexed read_uint_loop]. rewrite (char_func_digit _ _ d H), Hv.
  replace (v =? -1) with false by lia.
  assert (base <= 16) by (unfold is_base in B; lia).
  assert (8 <= base) by (unfold is_base in B; lia).
  rewrite (wrapu64_id (u * base)) by nia. rewrite wrapu64_id by nia.
  replace (mx <? u * base + v) with true by lia. rewrite orb_true_r. reflexivity.
Qed.

Lemma digits_ascii base ds : is_base base -> Forall (is_digit base) ds -> Forall (fun d => bz d < 128) ds.
Proof.
  intros B. apply Forall_impl. intros d [v Hv]. apply (digit_range _ _ _ B Hv).
Qed.

Lemma chunked_digits base ds t lt : is_base base -> Forall (is_digit base) ds -> chunked t lt ->
  chunked (ds ++ t) (asc ds ++ lt).
Proof. intros B F C. apply chunked_ascii; auto. eapply digits_ascii; eauto. Qed.

Lemma ne_slen_pos {A} (l : list A) : l <> [] -> 1 <= slen l.
Proof. destruct l; [congruence|]. rewrite slen_cons. pose proof (slen_nonneg l). lia. Qed.

(** ReadUint succeeds with exactly the digits [ds]. *)
Lemma read_uint_yes s a base cf mx bits ds t : char_func base = Some cf -> uint_max bits = Some mx ->
  at_split s a (ds ++ t) -> ds <> [] -> Forall (is_digit base) ds -> horner base 0 ds <= mx ->
  (no_digit_at base t \/
   (bits < 64 /\ exists d t', t = d :: t' /\ is_digit base d /\ mx < horner base 0 (ds ++ [d]))) ->
  read_uint base bits s = Ok ((horner base 0 ds, None), moveto (pos (sc s) + slen ds) s).
Proof.
  intros Hc Hb H Ne F Hh St. pose proof (char_func_some _ _ Hc) as B.
  unfold read_uint. rewrite Hc, Hb. tail_of H.
  destruct (chunked_exists t) as [lt Ct].
  rewrite (range_str_chunked _ _ (chunked_digits _ _ _ _ B F Ct)).
  assert (Hm : mx < 2 ^ 64 /\ (bits < 64 -> mx < 2 ^ 32)).
  { unfold uint_max in Hb.
    repeat match type of Hb with context [if ?c then _ else _] => destruct c eqn:? end;
    inversion Hb; subst; lia. }
  rewrite (read_uint_loop_run base cf mx ds lt Hc) by (try tauto; auto; lia).
  pose proof (horner_mono base 0 ds B ltac:(lia) F) as M.
  assert (Q : read_uint_loop cf base mx (indexed (0 + slen ds) lt) (horner base 0 ds) (last_i 0 (-1) ds)
              = (horner base 0 ds, last_i 0 (-1) ds)).
  { destruct St as [N|(Hb64 & d & t' & -> & [v Hv] & O)].
    - eapply no_digit_stop_u; eauto.
    - rewrite horner_app in O. cbn in O. rewrite Hv in O.
      eapply over_stop_u; eauto; try lia. }
  rewrite Q. pose proof (ne_slen_pos ds Ne) as L.
  assert (LI : last_i 0 (-1) ds = slen ds - 1) by (unfold last_i; destruct ds; [congruence|lia]).
  rewrite LI. replace (slen ds - 1 =? -1) with false by lia.
  replace (slen ds - 1 + 1) with (slen ds) by lia.
  rewrite (bind_ok _ _ _ _ _ (move_fwd _ _ _ _ H)). reflexivity.
Qed.

Lemma read_uint_no s a b base cf mx bits : char_func base = Some cf -> uint_max bits = Some mx ->
  at_split s a b -> no_digit_at base b ->
  read_uint base bits s = Ok ((0, Some (EReadError (pos (sc s)) (lit "unsigned integer"))), s).
Proof.
  intros Hc Hb H N. unfold read_uint. rewrite Hc, Hb. tail_of H.
  destruct (chunked_exists b) as [lb Cb]. rewrite (range_str_chunked _ _ Cb).
  rewrite (no_digit_stop_u base cf mx b lb 0 0 (-1) Hc N Cb). reflexivity.
Qed.

(** ReadInt *)
Lemma read_int_loop_run base cf mn mx neg ds lt : char_func base = Some cf ->
  - 2 ^ 63 <= mn -> mx < 2 ^ 63 -> 
  Forall (is_digit base) ds -> forall i u n, 0 <= u -> mn <= sgn neg (horner base u ds) <= mx ->
  read_int_loop cf base mn mx neg (indexed i (asc ds ++ lt)) (sgn neg u) n
  = read_int_loop cf base mn mx neg (indexed (i + slen ds) lt) (sgn neg (horner base u ds)) (last_i i n ds).
Proof.
  intros Hc Hmn Hmx F. pose proof (char_func_some _ _ Hc) as B.
  induction F as [|d ds [v Hv] F IH]; intros i u n Hu Hh.
  - cbn. rewrite Z.add_0_r. reflexivity.
  - pose proof (digit_range _ _ _ B Hv) as [R _].
    cbn [asc map app indexed read_int_loop horner] in *. rewrite (char_func_digit _ _ d Hc), Hv in *.
    replace (v =? -1) with false by lia.
    assert (B2 : 8 <= base) by (unfold is_base in B; lia).
    assert (M : u * base + v <= horner base (u * base + v) ds) by (apply horner_mono; auto; nia).
    assert (Z1 : 0 <= u * base) by nia.
    assert (LI : last_i (i + slen [d]) i ds = last_i i n (d :: ds)).
    { unfold last_i. change (slen [d]) with 1. destruct ds as [|d' ds]; [cbn; lia|]. rewrite !slen_cons. lia. }
    assert (II : i + slen [d] + slen ds = i + slen (d :: ds)) by (rewrite (slen_cons d ds); change (slen [d]) with 1; lia).
    destruct neg; cbn [sgn] in *.
    + rewrite (wrap64_id (- u * base)) by nia.
      replace (- u * base - v) with (- (u * base + v)) by ring.
      rewrite wrap64_id by nia.
      replace (- u <? - (u * base + v)) with false by nia.
      replace (- (u * base + v) <? mn) with false by lia. cbn [orb].
      fold (asc ds). specialize (IH (i + slen [d]) (u * base + v) i ltac:(nia) Hh). rewrite IH, LI, II. reflexivity.
    + rewrite (wrap64_id (u * base)) by nia.
      rewrite wrap64_id by nia.
      replace (u * base + v <? u) with false by nia.
      replace (mx <? u * base + v) with false by lia. cbn [orb].
      fold (asc ds). specialize (IH (i + slen [d]) (u * base + v) i ltac:(nia) Hh). rewrite IH, LI, II. reflexivity.
Qed.

Lemma no_digit_stop_i base cf mn mx neg t lt i u n : char_func base = Some cf -> no_digit_at base t ->
  chunked t lt -> read_int_loop cf base mn mx neg (indexed i lt) u n = (u, n).
Proof.
  intros H N C. destruct lt as [|[v c] lt]; [reflexivity|].
  cbn [indexed read_int_loop]. rewrite (no_digit_chunk _ _ _ _ _ _ H N C). reflexivity.
Qed.

Lemma over_stop_i base cf mn mx neg d t lt i u n v : char_func base = Some cf -> digit_val base d = Some v ->
  chunked (d :: t) lt -> 0 <= u -> - 2 ^ 32 <= mn -> mx < 2 ^ 32 -> mn <= sgn neg u <= mx ->
  ~ (mn <= sgn neg (u * base + v) <= mx) ->
  read_int_loop cf base mn mx neg (indexed i lt) (sgn neg u) n = (sgn neg u, n).
Proof.
  intros H Hv C Hu Hmn Hmx Hr Ho. pose proof (char_func_some _ _ H) as B.
  pose proof (digit_range _ _ _ B Hv) as [R Ra].
  destruct (chunked_exists t) as [l' Cl'].
  pose proof (chunked_ascii1 d t l' Ra Cl') as C'.
  rewrite (chunked_fun _ _ _ C C').
  cbn [indexed read_int_loop]. rewrite (char_func_digit _ _ d H), Hv.
  replace (v =? -1) with false by lia.
  assert (base <= 16) by (unfold is_base in B; lia).
  assert (8 <= base) by (unfold is_base in B; lia).
  assert (0 <= u * base) by nia.
  destruct neg; cbn [sgn] in *.
  - rewrite (wrap64_id (- u * base)) by nia.
    replace (- u * base - v) with (- (u * base + v)) by ring.
    rewrite wrap64_id by nia.
    replace (- (u * base + v) <? mn) with true by nia. rewrite orb_true_r. reflexivity.
  - rewrite (wrap64_id (u * base)) by nia. rewrite wrap64_id by nia.
    replace (mx <? u * base + v) with true by nia. rewrite orb_true_r. reflexivity.
Qed.

Lemma if_rune_ascii_yes s a x t : at_split s a (x :: t) -> bz x < 128 -> yes_by (if_rune (bz x)) s 1.
Proof.
  intros H Hx. destruct (chunked_exists t) as [lt Ct].
  pose proof (chunked_ascii1 x t lt Hx Ct) as C.
  assert (Ne : (bz x, [x]) :: lt <> []) by discriminate.
  pose proof (if_rune_spec s a (x :: t) _ (bz x) H C (or_introl Ne)) as [Y _].
  apply Y. reflexivity.
Qed.

Lemma if_rune_ascii_no s a b x : at_split s a b -> bz x < 128 -> (forall t, b <> x :: t) ->
  no (if_rune (bz x)) s.
Proof.
  intros H Hx N. destruct (chunked_exists b) as [l C].
  assert (NR : bz x <> RuneError) by (unfold RuneError; lia).
  pose proof (if_rune_spec s a b l (bz x) H C (or_intror NR)) as Y.
  destruct l as [|[v c] l]; [exact Y|]. destruct Y as [_ Y]. apply Y. intros ->.
  pose proof (bz_range x).
  apply chunked_cons_inv in C as (u & E & _ & _ & _ & [[_ K]|[K _]]).
  - rewrite utf8_ascii, zb_bz in K by lia. subst c. exact (N u E).
  - unfold RuneError in K. lia.
Qed.

Lemma sign_split_exists b : exists neg sg t, sign_split b neg sg t.
Proof.
  destruct b as [|x t].
  { exists false, [], []. constructor; discriminate. }
  destruct (Byte.byte_eq_dec x x2d) as [->|N1]; [eexists _, _, _; constructor|].
  destruct (Byte.byte_eq_dec x x2b) as [->|N2]; [eexists _, _, _; constructor|].
  exists false, [], (x :: t). constructor; congruence.
Qed.

Lemma read_sign s a b neg sg t : at_split s a b -> sign_split b neg sg t ->
  exists s1, at_split s1 (a ++ sg) t /\ full (sc s1) = full (sc s) /\ trk (sc s1) = trk (sc s) /\
    (sg = [] -> s1 = s) /\
    forall B (k : bool -> M B),
      bind (if_rune 0x2D) (fun neg => bind (if neg then ret true else if_rune 0x2B) (fun _ => k neg)) s
      = k neg s1.
Proof.
  intros H S. inversion S; subst.
  - exists (moveto (slen (a ++ [x2d])) s). split.
    + eapply at_split_moveto; eauto. rewrite <- app_assoc. reflexivity.
    + split; [reflexivity|]. split; [reflexivity|]. split; [discriminate|]. intros B k.
      change 0x2D with (bz x2d).
      rewrite (bind_ok _ _ _ _ _ (if_rune_ascii_yes s a x2d t H ltac:(reflexivity))).
      unfold bind, ret. rewrite (at_split_pos _ _ _ H), slen_app. reflexivity.
  - exists (moveto (slen (a ++ [x2b])) s). split.
    + eapply at_split_moveto; eauto. rewrite <- app_assoc. reflexivity.
    + split; [reflexivity|]. split; [reflexivity|]. split; [discriminate|]. intros B k.
      change 0x2D with (bz x2d). change 0x2B with (bz x2b).
      rewrite (bind_ok _ _ _ _ _ (if_rune_ascii_no s a (x2b :: t) x2d H ltac:(reflexivity) ltac:(discriminate))).
      rewrite (bind_ok _ _ _ _ _ (if_rune_ascii_yes s a x2b t H ltac:(reflexivity))).
      rewrite (at_split_pos _ _ _ H), slen_app. reflexivity.
  - exists s. rewrite app_nil_r. split; [exact H|]. split; [reflexivity|]. split; [reflexivity|].
    split; [auto|]. intros B k.
    change 0x2D with (bz x2d). change 0x2B with (bz x2b).
    rewrite (bind_ok _ _ _ _ _ (if_rune_ascii_no s a t x2d H ltac:(reflexivity) ltac:(assumption))).
    rewrite (bind_ok _ _ _ _ _ (if_rune_ascii_no s a t x2b H ltac:(reflexivity) ltac:(assumption))).
    reflexivity.
Qed.

Lemma int_bounds_range bits mn mx : int_bounds bits = Some (mn, mx) ->
  - 2 ^ 63 <= mn /\ mx < 2 ^ 63 /\ mn <= 0 <= mx /\ (bits < 64 -> - 2 ^ 32 <= mn /\ mx < 2 ^ 32).
Proof.
  unfold int_bounds. intros H.
  repeat match type of H with context [if ?c then _ else _] => destruct c eqn:? end;
  inversion H; subst; lia.
Qed.

Lemma read_int_yes s a b base cf mn mx bits neg sg ds t : char_func base = Some cf ->
  int_bounds bits = Some (mn, mx) -> at_split s a b -> sign_split b neg sg (ds ++ t) ->
  ds <> [] -> Forall (is_digit base) ds -> mn <= sgn neg (horner base 0 ds) <= mx ->
  (no_digit_at base t \/
   (bits < 64 /\ exists d t', t = d :: t' /\ is_digit base d /\
      ~ (mn <= sgn neg (horner base 0 (ds ++ [d])) <= mx))) ->
  answers (read_int base bits) s (sgn neg (horner base 0 ds), None) (slen a + slen sg + slen ds).
Proof.
  intros Hc Hb H S Ne F Hh St. pose proof (char_func_some _ _ Hc) as B.
  destruct (int_bounds_range _ _ _ Hb) as (R1 & R2 & R3 & R4).
  destruct (read_sign s a b neg sg (ds ++ t) H S) as (s1 & H1 & Ef & Et & _ & Hk).
  unfold answers, read_int. rewrite Hc, Hb.
  unfold bind at 1, mark, gets. rewrite Hk. clear Hk.
  tail_of H1.
  destruct (chunked_exists t) as [lt Ct].
  rewrite (range_str_chunked _ _ (chunked_digits _ _ _ _ B F Ct)).
  pose proof (read_int_loop_run base cf mn mx neg ds lt Hc R1 R2 F 0 0 (-1) ltac:(lia) Hh) as RUN.
  replace (sgn neg 0) with 0 in RUN by (destruct neg; reflexivity). rewrite RUN. clear RUN.
  pose proof (horner_mono base 0 ds B ltac:(lia) F) as M.
  assert (Q : read_int_loop cf base mn mx neg (indexed (0 + slen ds) lt) (sgn neg (horner base 0 ds)) (last_i 0 (-1) ds)
              = (sgn neg (horner base 0 ds), last_i 0 (-1) ds)).
  { destruct St as [N|(Hb64 & d & t' & -> & [v Hv] & O)].
    - eapply no_digit_stop_i; eauto.
    - rewrite horner_app in O. cbn in O. rewrite Hv in O.
      destruct (R4 Hb64). eapply over_stop_i; eauto. }
  rewrite Q. pose proof (ne_slen_pos ds Ne) as L.
  assert (LI : last_i 0 (-1) ds = slen ds - 1) by (unfold last_i; destruct ds; [congruence|lia]).
  rewrite LI. replace (slen ds - 1 =? -1) with false by lia.
  replace (slen ds - 1 + 1) with (slen ds) by lia.
  rewrite (bind_ok _ _ _ _ _ (move_fwd _ _ _ _ H1)).
  eexists. split; [reflexivity|]. cbn [moveto sc pos full trk].
  rewrite (at_split_pos _ _ _ H1), slen_app. split; [lia|]. auto.
Qed.

Lemma read_int_no s a b base cf mn mx bits neg sg t : char_func base = Some cf ->
  int_bounds bits = Some (mn, mx) -> at_split s a b -> sign_split b neg sg t -> no_digit_at base t ->
  answers (read_int base bits) s (0, Some (EReadError (slen a) (lit "integer"))) (slen a).
Proof.
  intros Hc Hb H S N.
  destruct (read_sign s a b neg sg t H S) as (s1 & H1 & Ef & Et & _ & Hk).
  unfold answers, read_int. rewrite Hc, Hb.
  unfold bind at 1, mark, gets. rewrite Hk. clear Hk.
  tail_of H1. destruct (chunked_exists t) as [lt Ct]. rewrite (range_str_chunked _ _ Ct).
  rewrite (no_digit_stop_i base cf mn mx neg t lt 0 0 (-1) Hc N Ct).
  change (-1 =? -1) with true. cbv iota.
  assert (TM : to_marker (pos (sc s)) s1 = Ok (true, moveto (pos (sc s)) s1)).
  { unfold to_marker. pose proof (at_split_pos _ _ _ H) as P. pose proof (slen_nonneg a).
    replace (pos (sc s) <? 0) with false by lia. reflexivity. }
  rewrite (bind_ok _ _ _ _ _ TM). eexists. split.
  - unfold error_for, bind, mark, gets, ret. cbn [moveto sc pos]. rewrite (at_split_pos _ _ _ H). reflexivity.
  - cbn. pose proof (at_split_pos _ _ _ H). auto.
Qed.

(** Results are always in range (C22), for every text. *)
Lemma read_uint_loop_range cf base mx l : forall u n, 0 <= u <= mx ->
  0 <= fst (read_uint_loop cf base mx l u n) <= mx.
Proof.
  induction l as [|[i r] l IH]; intros u n H; cbn [read_uint_loop]; [cbn; lia|].
  destruct (cf r =? -1); [cbn; lia|].
  match goal with |- context [if (?a || ?b)%bool then _ else _] => destruct (a || b)%bool eqn:E end; [cbn; lia|].
  apply IH. unfold wrapu64 in *.
  pose proof (Z.mod_pos_bound ((u * base) mod 2 ^ 64 + cf r) (2 ^ 64) ltac:(lia)). lia.
Qed.

Lemma read_int_loop_range (cf : Z -> Z) (base mn mx : Z) (neg : bool) l : forall u n : Z, mn <= 0 <= mx ->
  (if neg then mn <= u <= 0 else 0 <= u <= mx) ->
  mn <= fst (read_int_loop cf base mn mx neg l u n) <= mx.
Proof.
  induction l as [|[i r] l IH]; intros u n H0 H; cbn [read_int_loop]; [destruct neg; cbn; lia|].
  destruct (cf r =? -1); [destruct neg; cbn; lia|].
  destruct neg.
  - match goal with |- context [if (?a || ?b)%bool then _ else _] => destruct (a || b)%bool eqn:E end; [cbn; lia|]. apply IH; auto. lia.
  - match goal with |- context [if (?a || ?b)%bool then _ else _] => destruct (a || b)%bool eqn:E end; [cbn; lia|]. apply IH; auto. lia.
Qed.

Lemma to_marker_nonneg m s : 0 <= m -> to_marker m s = Ok (true, moveto m s).
Proof. intros H. unfold to_marker. replace (m <? 0) with false by lia. reflexivity. Qed.

Lemma move_total d s : exists ok s', move d s = Ok (ok, s') /\ full (sc s') = full (sc s) /\
  trk (sc s') = trk (sc s) /\ (0 <= pos (sc s) <= slen (full (sc s)) -> 0 <= pos (sc s') <= slen (full (sc s))).
Proof.
  unfold move. match goal with |- context [if (?a || ?b)%bool then _ else _] => destruct (a || b)%bool eqn:E end; eexists _, _; (split; [reflexivity|]); auto.
  cbn [moveto sc pos full trk]. split; auto. split; auto. lia.
Qed.

Lemma read_uint_total base bits s : in_text s ->
  exists v e s', read_uint base bits s = Ok ((v, e), s') /\ in_text s' /\
    full (sc s') = full (sc s) /\ trk (sc s') = trk (sc s) /\
    (e <> None -> s' = s) /\ (forall mx, uint_max bits = Some mx -> 0 <= v <= mx) /\
    (e = None -> is_base base /\ exists mx, uint_max bits = Some mx).
Proof.
  intros I. unfold read_uint. destruct (char_func base) as [cf|] eqn:Hc.
  2:{ eexists _, _, _. split; [reflexivity|]. repeat split; try apply I; auto; try discriminate; try lia.
      unfold uint_max in H. repeat match type of H with context [if ?c then _ else _] => destruct c end; inversion H; lia. }
  destruct (uint_max bits) as [mx|] eqn:Hb.
  2:{ eexists _, _, _. split; [reflexivity|]. repeat split; try apply I; auto; try discriminate; lia. }
  apply at_split_in_text in I as (a & b & H). tail_of H.
  assert (Hm : 0 <= mx).
  { unfold uint_max in Hb. repeat match type of Hb with context [if ?c then _ else _] => destruct c end; inversion Hb; lia. }
  pose proof (read_uint_loop_range cf base mx (range_str b) 0 (-1) ltac:(lia)) as R.
  destruct (read_uint_loop cf base mx (range_str b) 0 (-1)) as [u n]. cbn [fst] in R.
  destruct (n =? -1).
  - eexists _, _, _. split; [reflexivity|]. split; [eapply in_text_split; eauto|].
    repeat split; auto; try congruence; try discriminate; injection H0 as <-; lia.
  - destruct (move_total (n + 1) s) as (ok & s' & E & Ef & Et & Ep). rewrite (bind_ok _ _ _ _ _ E).
    eexists _, _, _. split; [reflexivity|]. pose proof (in_text_split _ _ _ H) as [I1 I2].
    split; [split; rewrite Ef; auto|]. repeat split; auto; try congruence.
    + injection H0 as <-. lia.
    + injection H0 as <-. lia.
    + apply (char_func_some _ _ Hc).
    + eauto.
Qed.

Lemma read_int_total base bits s : in_text s ->
  exists v e s', read_int base bits s = Ok ((v, e), s') /\ in_text s' /\
    full (sc s') = full (sc s) /\ trk (sc s') = trk (sc s) /\
    (e <> None -> pos (sc s') = pos (sc s)) /\
    (forall mn mx, int_bounds bits = Some (mn, mx) -> mn <= v <= mx) /\
    (e = None -> is_base base /\ exists r, int_bounds bits = Some r).
Proof.
  intros I. unfold read_int. destruct (char_func base) as [cf|] eqn:Hc.
  2:{ eexists _, _, _. split; [reflexivity|]. repeat split; try apply I; auto; try discriminate;
      apply int_bounds_range in H; lia. }
  destruct (int_bounds bits) as [[mn mx]|] eqn:Hb.
  2:{ eexists _, _, _. split; [reflexivity|]. repeat split; try apply I; auto; try discriminate; lia. }
  pose proof I as I0. apply at_split_in_text in I as (a & b & H).
  destruct (int_bounds_range _ _ _ Hb) as (R1 & R2 & R3 & _).
  destruct (sign_split_exists b) as (neg & sg & t & S).
  destruct (read_sign s a b neg sg t H S) as (s1 & H1 & Ef & Et & _ & Hk).
  unfold bind at 1, mark, gets. rewrite Hk. clear Hk. tail_of H1.
  pose proof (read_int_loop_range cf base mn mx neg (range_str t) 0 (-1) R3 ltac:(destruct neg; lia)) as R.
  destruct (read_int_loop cf base mn mx neg (range_str t) 0 (-1)) as [u n]. cbn [fst] in R.
  destruct (n =? -1).
  - destruct I0 as [I1 I2]. rewrite (bind_ok _ _ _ _ _ (to_marker_nonneg (pos (sc s)) s1 ltac:(lia))).
    eexists _, _, _. split; [reflexivity|]. cbn [moveto sc pos full trk].
    split; [unfold in_text; cbn [moveto sc pos full]; rewrite Ef; auto|].
    repeat split; auto; try discriminate; injection H0 as <- <-; lia.
  - destruct (move_total (n + 1) s1) as (ok & s' & E & Ef' & Et' & Ep). rewrite (bind_ok _ _ _ _ _ E).
    eexists _, _, _. split; [reflexivity|].
    pose proof (in_text_split _ _ _ H1) as [J1 J2].
    split; [split; rewrite Ef'; auto|]. rewrite Ef', Et'.
    repeat split; auto; try congruence.
    + injection H0 as <- <-. lia.
    + injection H0 as <- <-. lia.
    + apply (char_func_some _ _ Hc).
    + eauto.
Qed.

(** The value is right modulo 2^64 - all that 64 bit reads guarantee (C20). *)
Lemma read_uint_loop_mod base cf l : forall u n, char_func base = Some cf ->
  forall u' n', read_uint_loop cf base 18446744073709551615 l u n = (u', n') ->
  exists l1 l2, l = l1 ++ l2 /\
    u' mod 2 ^ 64 = fold_left (fun acc r => acc * base + cf r) (map snd l1) u mod 2 ^ 64 /\
    n' = last (map fst l1) n.
Proof.
  induction l as [|[i r] l IH]; intros u n Hc u' n'; cbn [read_uint_loop].
  - intros [= <- <-]. exists [], []. auto.
  - destruct (cf r =? -1).
    { intros [= <- <-]. exists [], ((i, r) :: l). auto. }
    match goal with |- context [if (?a || ?b)%bool then _ else _] => destruct (a || b)%bool end.
    { intros [= <- <-]. exists [], ((i, r) :: l). auto. }
    intros E. destruct (IH _ _ Hc _ _ E) as (l1 & l2 & -> & M & ->).
    exists ((i, r) :: l1), l2. split; [reflexivity|]. split.
    + rewrite M. cbn [map snd fold_left].
      assert (G : forall l x y, x mod 2 ^ 64 = y mod 2 ^ 64 ->
        fold_left (fun acc r => acc * base + cf r) l x mod 2 ^ 64
        = fold_left (fun acc r => acc * base + cf r) l y mod 2 ^ 64).
      { clear. induction l as [|r l IH]; intros x y H; [exact H|]. cbn [fold_left]. apply IH.
        rewrite Z.add_mod, Z.mul_mod, H, <- Z.mul_mod, <- Z.add_mod by lia. reflexivity. }
      apply G. unfold wrapu64. rewrite Z.mod_mod by lia.
      rewrite Z.add_mod_idemp_l by lia. reflexivity.
    + cbn [map fst last]. clear. generalize (map fst l1) as q. intros q. revert i.
      induction q as [|x q IH]; intros i; [reflexivity|]. cbn [last]. destruct q; auto.
Qed.

(* ------------------------------------------------------- printing (C21) *)

Lemma digit_char_val base v : is_base base -> 0 <= v < base -> digit_val base (digit_char v) = Some v.
Proof.
  intros B H. unfold digit_char, digit_val. unfold is_base in B.
  destruct (v <? 10) eqn:E; rewrite bz_zb by lia.
  - replace (48 <=? 48 + v) with true by lia. replace (48 + v <=? 57) with true by lia. cbn [andb].
    replace (48 + v - 48) with v by lia. replace (v <? base) with true by lia. reflexivity.
  - replace (97 + (v - 10) <=? 57) with false by lia. rewrite andb_false_r.
    replace (97 <=? 97 + (v - 10)) with true by lia. replace (97 + (v - 10) <=? 102) with true by lia. cbn [andb].
    replace (97 + (v - 10) - 97 + 10) with v by lia. replace (v <? base) with true by lia. reflexivity.
Qed.

Lemma print_loop_spec base k : is_base base -> forall v, 0 <= v < base ^ Z.of_nat k -> (k <> 0)%nat ->
  Forall (is_digit base) (print_loop k base v) /\ print_loop k base v <> [] /\
  horner base 0 (print_loop k base v) = v.
Proof.
  intros B. assert (B2 : 8 <= base) by (unfold is_base in B; lia).
  induction k as [|k IH]; intros v H Hk; [congruence|]. cbn [print_loop].
  destruct (v <? base) eqn:E.
  - pose proof (digit_char_val base v B ltac:(lia)) as D. split.
    + constructor; auto. exists v. exact D.
    + split; [discriminate|]. cbn [horner]. rewrite D. lia.
  - assert (Hk' : (k <> 0)%nat).
    { intros ->. change (Z.of_nat 1) with 1 in H. rewrite Z.pow_1_r in H. lia. }
    assert (Q : 0 <= v / base < base ^ Z.of_nat k).
    { split; [apply Z.div_pos; lia|]. apply Z.div_lt_upper_bound; [lia|].
      rewrite <- Z.pow_succ_r by lia. replace (Z.succ (Z.of_nat k)) with (Z.of_nat (S k)) by lia. lia. }
    destruct (IH (v / base) Q Hk') as (F & N & Hh).
    pose proof (Z.mod_pos_bound v base ltac:(lia)) as Mb.
    pose proof (digit_char_val base (v mod base) B Mb) as D.
    split; [|split].
    + apply Forall_app. split; auto. constructor; auto. exists (v mod base). exact D.
    + intros K. apply app_eq_nil in K as [_ K]. discriminate.
    + rewrite horner_app, Hh. cbn [horner]. rewrite D. rewrite (Z.div_mod v base) at 3 by lia. lia.
Qed.

Lemma print_uint_spec base v : is_base base -> 0 <= v < 2 ^ 64 ->
  Forall (is_digit base) (print_uint base v) /\ print_uint base v <> [] /\
  horner base 0 (print_uint base v) = v.
Proof.
  intros B H. unfold print_uint. apply print_loop_spec; [exact B| |discriminate].
  split; [lia|]. change (Z.of_nat 64) with 64.
  assert (8 ^ 64 <= base ^ 64).
  { apply Z.pow_le_mono_l. unfold is_base in B. lia. }
  assert (2 ^ 64 <= 8 ^ 64) by (vm_compute; discriminate). lia.
Qed.

(* ------------------------------------------ the statements of C18, C19, C21 *)

Lemma longest_digits_exists base (fits : Z -> Prop) (D : forall v, {fits v} + {~ fits v}) t :
  is_base base -> fits 0 -> exists ds, longest_digits base fits t ds.
Proof.
  intros B F0.
  assert (G : forall t pre, Forall (is_digit base) pre -> fits (horner base 0 pre) ->
    exists ds u, t = ds ++ u /\ Forall (is_digit base) (pre ++ ds) /\ fits (horner base 0 (pre ++ ds)) /\
    (no_digit_at base u \/ exists d u', u = d :: u' /\ is_digit base d /\ ~ fits (horner base 0 (pre ++ ds ++ [d])))).
  { clear t. induction t as [|d t IH]; intros pre Fp Hp.
    - exists [], []. rewrite !app_nil_r. repeat split; auto. left. intros ? ? K. discriminate.
    - destruct (digit_val base d) as [v|] eqn:Hv.
      + destruct (D (horner base 0 (pre ++ [d]))) as [Hf|Hf].
        * destruct (IH (pre ++ [d])) as (ds & u & -> & F' & H' & S).
          { apply Forall_app. split; auto. constructor; auto. exists v. exact Hv. }
          { exact Hf. }
          exists (d :: ds), u. rewrite <- app_assoc in F', H'. cbn [app] in F', H'.
          repeat split; auto. destruct S as [S|(d' & u' & -> & Hd & S)]; [left; exact S|].
          right. exists d', u'. rewrite <- app_assoc in S. repeat split; auto.
        * exists [], (d :: t). rewrite !app_nil_r. repeat split; auto.
          right. exists d, t. repeat split; auto. exists v. exact Hv.
      + exists [], (d :: t). rewrite !app_nil_r. repeat split; auto.
        left. intros d' t' [= <- <-] [v K]. congruence. }
  destruct (G t [] (Forall_nil _) F0) as (ds & u & E & F & H & S).
  exists ds, u. auto.
Qed.

Lemma uint_max_fits bits : is_size bits -> exists mx, uint_max bits = Some mx /\ forall v, 0 <= v -> (uint_fits bits v <-> v <= mx).
Proof.
  unfold uint_fits. intros [->|[->|[->| ->]]]; eexists; (split; [reflexivity|]); intros v Hv; lia.
Qed.
Lemma int_bounds_fits bits : is_size bits ->
  exists mn mx, int_bounds bits = Some (mn, mx) /\ forall v, int_fits bits v <-> mn <= v <= mx.
Proof.
  unfold int_fits. intros [->|[->|[->| ->]]]; eexists _, _; (split; [reflexivity|]); intros v; lia.
Qed.

Lemma read_uint_longest s a b base bits ds : is_base base -> is_size bits -> bits < 64 ->
  at_split s a b -> longest_digits base (uint_fits bits) b ds ->
  (ds <> [] -> read_uint base bits s = Ok ((horner base 0 ds, None), moveto (pos (sc s) + slen ds) s)) /\
  (ds = [] -> read_uint base bits s = Ok ((0, Some (EReadError (pos (sc s)) (lit "unsigned integer"))), s)).
Proof.
  intros B Z64 Lt H (u & -> & F & Ft & S).
  destruct (char_func_base base B) as [cf Hc]. destruct (uint_max_fits bits Z64) as (mx & Hm & Hf).
  pose proof (horner_mono base 0 ds B ltac:(lia) F) as M0.
  split.
  - intros Ne. eapply (read_uint_yes s a base cf mx bits ds u); eauto.
    + apply Hf; auto; lia.
    + destruct S as [S|(d & u' & -> & Hd & O)]; [left; exact S|right]. split; auto.
      exists d, u'. repeat split; auto.
      assert (Fd : Forall (is_digit base) (ds ++ [d])) by (apply Forall_app; split; auto).
      pose proof (horner_mono base 0 (ds ++ [d]) B ltac:(lia) Fd) as M1.
      destruct (Z_lt_ge_dec mx (horner base 0 (ds ++ [d]))); auto. exfalso. apply O. apply Hf; lia.
  - intros ->. eapply read_uint_no; eauto. destruct S as [S|(d & u' & -> & [v Hd] & O)]; [exact S|].
    exfalso. apply O. cbn [app horner]. rewrite Hd. pose proof (digit_range _ _ _ B Hd) as [R _].
    unfold uint_fits. unfold is_base in B. destruct Z64 as [->|[->|[->| ->]]]; lia.
Qed.

Lemma read_int_longest s a b base bits neg sg t ds : is_base base -> is_size bits -> bits < 64 ->
  at_split s a b -> sign_split b neg sg t -> longest_digits base (fun v => int_fits bits (sgn neg v)) t ds ->
  (ds <> [] -> answers (read_int base bits) s (sgn neg (horner base 0 ds), None) (slen a + slen sg + slen ds)) /\
  (ds = [] -> answers (read_int base bits) s (0, Some (EReadError (slen a) (lit "integer"))) (slen a)).
Proof.
  intros B Z64 Lt H Ss (u & -> & F & Ft & S).
  destruct (char_func_base base B) as [cf Hc]. destruct (int_bounds_fits bits Z64) as (mn & mx & Hm & Hf).
  split.
  - intros Ne. eapply (read_int_yes s a b base cf mn mx bits neg sg ds u); eauto.
    + apply Hf; auto.
    + destruct S as [S|(d & u' & -> & Hd & O)]; [left; exact S|right]. split; auto.
      exists d, u'. repeat split; auto. rewrite <- Hf. exact O.
  - intros ->. eapply read_int_no; eauto. destruct S as [S|(d & u' & -> & [v Hd] & O)]; [exact S|].
    exfalso. apply O. cbn [app horner]. rewrite Hd. pose proof (digit_range _ _ _ B Hd) as [R _].
    unfold int_fits, sgn. unfold is_base in B. destruct Z64 as [->|[->|[->| ->]]]; destruct neg; lia.
Qed.

(** 64 bit: right whenever the whole digit run fits. *)
Lemma read_uint_run s a base bits ds t : is_base base -> is_size bits ->
  at_split s a (ds ++ t) -> ds <> [] -> Forall (is_digit base) ds -> uint_fits bits (horner base 0 ds) ->
  no_digit_at base t ->
  read_uint base bits s = Ok ((horner base 0 ds, None), moveto (pos (sc s) + slen ds) s).
Proof.
  intros B Z64 H Ne F Ft N. destruct (char_func_base base B) as [cf Hc].
  destruct (uint_max_fits bits Z64) as (mx & Hm & Hf).
  pose proof (horner_mono base 0 ds B ltac:(lia) F). eapply read_uint_yes; eauto. apply Hf; auto.
Qed.

Lemma read_int_run s a b base bits neg sg ds t : is_base base -> is_size bits ->
  at_split s a b -> sign_split b neg sg (ds ++ t) -> ds <> [] -> Forall (is_digit base) ds ->
  int_fits bits (sgn neg (horner base 0 ds)) -> no_digit_at base t ->
  answers (read_int base bits) s (sgn neg (horner base 0 ds), None) (slen a + slen sg + slen ds).
Proof.
  intros B Z64 H Ss Ne F Ft N. destruct (char_func_base base B) as [cf Hc].
  destruct (int_bounds_fits bits Z64) as (mn & mx & Hm & Hf).
  eapply read_int_yes; eauto. apply Hf; auto.
Qed.

Lemma digit_not_sign base d : is_base base -> is_digit base d -> d <> x2d /\ d <> x2b.
Proof.
  intros B [v Hv]. split; intros ->; destruct B as [->|[->| ->]]; vm_compute in Hv; discriminate.
Qed.

Lemma read_print_uint s a base bits v t : is_base base -> is_size bits -> uint_fits bits v ->
  at_split s a (print_uint base v ++ t) -> no_digit_at base t ->
  read_uint base bits s = Ok ((v, None), moveto (pos (sc s) + slen (print_uint base v)) s).
Proof.
  intros B Z64 F H N.
  assert (R : 0 <= v < 2 ^ 64).
  { unfold uint_fits in F. destruct Z64 as [->|[->|[->| ->]]]; lia. }
  destruct (print_uint_spec base v B R) as (Fd & Ne & E).
  assert (G := read_uint_run s a base bits _ t B Z64 H Ne Fd). rewrite E in G. auto.
Qed.

Lemma read_print_int s a base bits v t : is_base base -> is_size bits -> int_fits bits v ->
  at_split s a (print_int base v ++ t) -> no_digit_at base t ->
  answers (read_int base bits) s (v, None) (slen a + slen (print_int base v)).
Proof.
  intros B Z64 F H N.
  assert (R : - 2 ^ 63 <= v < 2 ^ 63).
  { unfold int_fits in F. destruct Z64 as [->|[->|[->| ->]]]; lia. }
  unfold print_int in *. destruct (v <? 0) eqn:Ev.
  - destruct (print_uint_spec base (- v) B ltac:(lia)) as (Fd & Ne & E).
    assert (Ev2 : sgn true (horner base 0 (print_uint base (- v))) = v) by (rewrite E; cbn; lia).
    rewrite slen_cons.
    assert (G := read_int_run s a _ base bits true [x2d] (print_uint base (- v)) t B Z64 H (ss_neg _) Ne Fd).
    rewrite Ev2 in G. specialize (G F N). change (slen [x2d]) with 1 in G.
    replace (slen a + (slen (print_uint base (- v)) + 1)) with (slen a + 1 + slen (print_uint base (- v))) by lia.
    exact G.
  - destruct (print_uint_spec base v B ltac:(lia)) as (Fd & Ne & E).
    assert (Ev2 : sgn false (horner base 0 (print_uint base v)) = v) by (rewrite E; reflexivity).
    assert (S0 : sign_split (print_uint base v ++ t) false [] (print_uint base v ++ t)).
    { destruct (print_uint base v) as [|d ds]; [congruence|].
      inversion Fd as [|? ? Hd _]; subst. destruct (digit_not_sign base d B Hd).
      constructor; cbn [app]; congruence. }
    assert (G := read_int_run s a _ base bits false [] (print_uint base v) t B Z64 H S0 Ne Fd).
    rewrite Ev2 in G. specialize (G F N). rewrite slen_nil, Z.add_0_r in G. exact G.
Qed.

(* --------------------------------------------------------------- walking (C16) *)

Lemma walk_fwd b r1 : forall s a, at_split s a (utf8s r1 ++ b) -> Forall visible r1 ->
  answers (walk read_rune (length r1)) s r1 (slen a + slen (utf8s r1)).
Proof.
  induction r1 as [|r r1 IH]; intros s a H F.
  - exists s. repeat split. rewrite (at_split_pos _ _ _ H). cbn. lia.
  - inversion F as [|? ? [Hs Hv] F']; subst.
    cbn [utf8s flat_map] in H. fold (utf8s r1) in H. rewrite <- app_assoc in H.
    destruct (chunked_exists (utf8s r1 ++ b)) as [l Cl].
    assert (C : chunked (utf8 r ++ utf8s r1 ++ b) ((r, utf8 r) :: l)) by (constructor; auto).
    pose proof (read_rune_yes s a _ r (utf8 r) l H C Hv) as E.
    rewrite (at_split_pos _ _ _ H), <- slen_app in E.
    assert (H' : at_split (moveto (slen (a ++ utf8 r)) s) (a ++ utf8 r) (utf8s r1 ++ b)).
    { eapply at_split_moveto; eauto. rewrite <- app_assoc. reflexivity. }
    destruct (IH _ _ H' F') as (s' & E' & P' & Fu & T').
    exists s'. cbn [length walk]. rewrite (bind_ok _ _ _ _ _ E). cbn [snd fst].
    rewrite (bind_ok _ _ _ _ _ E'). split; [reflexivity|].
    cbn [utf8s flat_map]. fold (utf8s r1). rewrite P', !slen_app. split; [lia|]. auto.
Qed.

Lemma walk_back r1 : forall b s a, at_split s (a ++ utf8s r1) b -> Forall visible r1 ->
  answers (walk rev_read_rune (length r1)) s (rev r1) (slen a).
Proof.
  induction r1 as [|r r1 IH] using rev_ind; intros b s a H F.
  - exists s. repeat split. rewrite (at_split_pos _ _ _ H). cbn. rewrite app_nil_r. reflexivity.
  - apply Forall_app in F as [F Fr]. inversion Fr as [|? ? [Hs Hv] _]; subst.
    rewrite utf8s_snoc, app_assoc in H.
    assert (C : last_chunk ((a ++ utf8s r1) ++ utf8 r) r (utf8 r)) by (constructor; auto).
    pose proof (rev_read_rune_yes s _ b r (utf8 r) H C Hv) as E.
    assert (Ep : pos (sc s) - slen (utf8 r) = slen (a ++ utf8s r1)).
    { rewrite (at_split_pos _ _ _ H), (slen_app _ (utf8 r)). lia. }
    rewrite Ep in E.
    assert (H' : at_split (moveto (slen (a ++ utf8s r1)) s) (a ++ utf8s r1) (utf8 r ++ b)).
    { eapply at_split_moveto; eauto. rewrite <- app_assoc. reflexivity. }
    destruct (IH _ _ _ H' F) as (s' & E' & P' & Fu & T').
    exists s'. rewrite app_length, Nat.add_comm. cbn [length Nat.add walk].
    rewrite (bind_ok _ _ _ _ _ E). cbn [snd fst].
    rewrite (bind_ok _ _ _ _ _ E'). rewrite rev_app_distr. split; [reflexivity|]. auto.
Qed.

Lemma read_rev_read s a r b : at_split s a (utf8 r ++ b) -> visible r ->
  answers (let* x := read_rune in let* y := rev_read_rune in ret (x, y)) s ((r, None), (r, None)) (pos (sc s)).
Proof.
  intros H [Hs Hv]. destruct (chunked_exists b) as [l Cl].
  assert (C : chunked (utf8 r ++ b) ((r, utf8 r) :: l)) by (constructor; auto).
  pose proof (read_rune_yes s a _ r (utf8 r) l H C Hv) as E.
  pose proof (at_split_pos _ _ _ H) as P.
  rewrite P, <- slen_app in E.
  assert (H' : at_split (moveto (slen (a ++ utf8 r)) s) (a ++ utf8 r) b).
  { eapply at_split_moveto; eauto. rewrite <- app_assoc. reflexivity. }
  pose proof (rev_read_rune_yes _ _ b r (utf8 r) H' (lc_rune a r Hs) Hv) as E'.
  unfold answers. rewrite (bind_ok _ _ _ _ _ E), (bind_ok _ _ _ _ _ E').
  eexists. split; [reflexivity|]. cbn [moveto sc pos full trk]. rewrite slen_app. split; [lia|auto].
Qed.

(* ---------------------------------------------------- MoveRunes on valid text (C14) *)

Lemma utf8s_chunked rs b l : Forall is_scalar rs -> chunked b l ->
  chunked (utf8s rs ++ b) (map (fun r => (r, utf8 r)) rs ++ l).
Proof.
  intros F C. induction F as [|r rs Hr F IH]; [exact C|].
  cbn [utf8s flat_map map app]. fold (utf8s rs). rewrite <- app_assoc. constructor; auto.
Qed.

Lemma chunk_bytes_runes rs : chunk_bytes (map (fun r => (r, utf8 r)) rs) = utf8s rs.
Proof. induction rs as [|r rs IH]; [reflexivity|]. cbn. fold (utf8s rs). f_equal. exact IH. Qed.

Lemma move_runes_text s a r1 r2 : at_split s a (utf8s (r1 ++ r2)) -> Forall is_scalar (r1 ++ r2) ->
  r1 <> [] -> yes_by (move_runes (slen r1)) s (slen (utf8s r1)).
Proof.
  intros H F Ne. destruct (exists_last Ne) as (r0 & v & ->).
  pose proof (utf8s_chunked _ [] [] F ck_nil) as C. rewrite !app_nil_r in C.
  rewrite <- app_assoc in C. rewrite map_app in C. cbn [map app] in C.
  assert (H2 := H). rewrite <- app_assoc in H. cbn [app] in H.
  pose proof (move_runes_fwd_spec s a _ _ v (utf8 v) _ H C) as E.
  rewrite slen_map, chunk_bytes_runes in E. unfold yes_by.
  rewrite slen_app. change (slen [v]) with 1. rewrite E.
  rewrite <- slen_app, <- utf8s_snoc.
  apply (move_fwd s a (utf8s (r0 ++ [v])) (utf8s r2)). rewrite <- utf8s_app. exact H2.
Qed.

Lemma move_runes_text_no s a rs n : at_split s a (utf8s rs) -> Forall is_scalar rs ->
  slen rs < n -> no (move_runes n) s.
Proof.
  intros H F L. pose proof (utf8s_chunked _ [] [] F ck_nil) as C. rewrite !app_nil_r in C.
  apply (move_runes_fwd_no s a _ _ n H C). rewrite slen_map. exact L.
Qed.

Lemma move_runes_inverse s r0 r1 r2 : at_split s (utf8s r0) (utf8s (r1 ++ r2)) ->
  Forall visible (r0 ++ r1 ++ r2) ->
  answers (move_runes (slen r1) ;; move_runes (- slen r1)) s true (pos (sc s)).
Proof.
  intros H F. destruct r1 as [|x r1'] eqn:E1.
  { exists s. repeat split. }
  rewrite <- E1 in *. assert (Ne : r1 <> []) by (subst; discriminate). clear E1 x r1'.
  rewrite app_assoc in F. apply Forall_app in F as [F0 F2]. pose proof F0 as F01.
  apply Forall_app in F0 as [F0 F1].
  assert (F' : Forall is_scalar (r1 ++ r2)) by (apply Forall_app; split; apply visible_scalars; auto).
  pose proof (move_runes_text s (utf8s r0) r1 r2 H F' Ne) as Y. unfold yes_by in Y.
  pose proof (at_split_pos _ _ _ H) as P. rewrite P, <- slen_app, <- utf8s_app in Y.
  assert (H' : at_split (moveto (slen (utf8s (r0 ++ r1))) s) (utf8s (r0 ++ r1)) (utf8s r2)).
  { eapply at_split_moveto; eauto. rewrite !utf8s_app, app_assoc. reflexivity. }
  pose proof (move_runes_rev_yes _ [] r0 r1 _ H' blocked_nil F01 Ne) as Y'. unfold yes_by in Y'.
  unfold answers. rewrite (bind_ok _ _ _ _ _ Y), Y'.
  eexists. split; [reflexivity|]. cbn [moveto sc pos full trk]. rewrite utf8s_app, slen_app. split; [lia|auto].
Qed.

Lemma count_byte_occ c s : count_byte c s = occ c s.
Proof.
  unfold occ. induction s as [|b s IH]; [reflexivity|]. rewrite count_byte_cons, IH. cbn [count_occ].
  destruct (Byte.byte_eq_dec b c) as [->|N].
  - rewrite byte_eqb_refl. lia.
  - replace (Byte.eqb c b) with false; [lia|]. symmetry. apply byte_eqb_neq. congruence.
Qed.

Lemma line_col_occ s a b p l tab : at_split s a b -> a = p ++ l -> ~ In x0a l ->
  (p = [] \/ exists q, p = q ++ [x0a]) ->
  line_col tab s = Ok ((1 + occ x0a a, wrap64 (1 + (slen l - occ x09 l) + occ x09 l * tab)), s).
Proof. rewrite <- !count_byte_occ. apply line_col_spec. Qed.

Lemma rev_run_intro (P : Z -> Prop) p s rs b : at_split s (utf8s rs) b -> Forall visible rs ->
  (forall x, In x rs -> (p x = true <-> P x)) -> rev_run P (rev_while p) s rs.
Proof.
  intros H F D r1 r2 E F2 X.
  destruct (rev_while_spec P p s [] rs b r1 r2 H blocked_nil F D E F2 X) as [A B]. cbn [app] in *.
  split; intros K; [apply A; rewrite K; reflexivity|apply B].
  destruct rs as [|x rs]; [congruence|]. cbn [utf8s flat_map]. intros K2.
  apply app_eq_nil in K2 as [K2 _]. exact (utf8_nonnil x K2).
Qed.

(* ------------------------------------------------- 64 bit reads wrap around (C20) *)

Lemma digit_prefix base b : exists ds t, b = ds ++ t /\ Forall (is_digit base) ds /\ no_digit_at base t.
Proof.
  induction b as [|d b (ds & t & -> & F & N)].
  - exists [], []. repeat split; auto. intros d t' E. discriminate.
  - destruct (digit_val base d) as [v|] eqn:E.
    + exists (d :: ds), t. repeat split; auto. constructor; auto. exists v; auto.
    + exists [], (d :: ds ++ t). repeat split; auto. intros d' t' [= <- <-] [v K]. congruence.
Qed.

Lemma last_i_cons i n d ds : last_i (i + 1) i ds = last_i i n (d :: ds).
Proof. unfold last_i. destruct ds as [|d' ds]; [cbn; lia|]. rewrite !slen_cons. lia. Qed.

Lemma uint_loop_wrap base cf mx t lt D : char_func base = Some cf -> no_digit_at base t -> chunked t lt ->
  Forall (is_digit base) D -> forall i h n, exists ds e, D = ds ++ e /\
  read_uint_loop cf base mx (indexed i (asc D ++ lt)) (h mod 2 ^ 64) n
  = (horner base h ds mod 2 ^ 64, last_i i n ds).
Proof.
  intros Hc N C F. pose proof (char_func_some _ _ Hc) as B.
  induction F as [|d D [v Hv] F IH]; intros i h n.
  - exists [], []. split; auto. cbn [asc map app]. rewrite (no_digit_stop_u _ _ _ _ _ _ _ _ Hc N C). reflexivity.
  - pose proof (digit_range _ _ _ B Hv) as [R _].
    cbn [asc map app indexed read_uint_loop]. rewrite (char_func_digit _ _ d Hc), Hv.
    replace (v =? -1) with false by lia.
    match goal with |- context [if (?a || ?b)%bool then _ else _] => destruct (a || b)%bool end.
    { exists [], (d :: D). split; reflexivity. }
    assert (W : wrapu64 (wrapu64 (h mod 2 ^ 64 * base) + v) = (h * base + v) mod 2 ^ 64).
    { unfold wrapu64. rewrite Z.add_mod_idemp_l by lia. rewrite Z.add_mod by lia.
      rewrite Z.mul_mod_idemp_l by lia. rewrite <- Z.add_mod by lia. reflexivity. }
    rewrite W. change (slen [d]) with 1. fold (asc D).
    destruct (IH (i + 1) (h * base + v) i) as (ds & e & -> & E). rewrite E.
    exists (d :: ds), e. split; [reflexivity|]. cbn [horner]. rewrite Hv.
    f_equal. apply last_i_cons.
Qed.

Lemma wrap64_cong x y : x mod 2 ^ 64 = y mod 2 ^ 64 -> wrap64 x = wrap64 y.
Proof.
  intros H. unfold wrap64. rewrite (Z.add_mod x), (Z.add_mod y), H by lia. reflexivity.
Qed.
Lemma wrap64_mod x : wrap64 x mod 2 ^ 64 = x mod 2 ^ 64.
Proof.
  unfold wrap64. rewrite Zminus_mod, Z.mod_mod by lia. rewrite <- Zminus_mod.
  f_equal. lia.
Qed.

Lemma int_loop_wrap base cf mn mx (neg : bool) t lt D : char_func base = Some cf -> no_digit_at base t -> chunked t lt ->
  Forall (is_digit base) D -> forall i h n, exists ds e, D = ds ++ e /\
  read_int_loop cf base mn mx neg (indexed i (asc D ++ lt)) (wrap64 (sgn neg h)) n
  = (wrap64 (sgn neg (horner base h ds)), last_i i n ds).
Proof.
  intros Hc N C F. pose proof (char_func_some _ _ Hc) as B.
  induction F as [|d D [v Hv] F IH]; intros i h n.
  - exists [], []. split; auto. cbn [asc map app]. rewrite (no_digit_stop_i _ _ _ _ _ _ _ _ _ _ Hc N C). reflexivity.
  - pose proof (digit_range _ _ _ B Hv) as [R _].
    cbn [asc map app indexed read_int_loop]. rewrite (char_func_digit _ _ d Hc), Hv.
    replace (v =? -1) with false by lia.
    assert (W : wrap64 (wrap64 (wrap64 (sgn neg h) * base) + sgn neg v) = wrap64 (sgn neg (h * base + v))).
    { apply wrap64_cong. rewrite Z.add_mod, wrap64_mod by lia. rewrite Z.mul_mod, wrap64_mod by lia.
      rewrite <- Z.mul_mod, <- Z.add_mod by lia. f_equal. destruct neg; cbn [sgn]; ring. }
    fold (asc D).
    assert (X : forall b : bool, exists ds e, d :: D = ds ++ e /\
      (if b then (wrap64 (sgn neg h), n)
       else read_int_loop cf base mn mx neg (indexed (i + slen [d]) (asc D ++ lt)) (wrap64 (sgn neg (h * base + v))) i)
      = (wrap64 (sgn neg (horner base h ds)), last_i i n ds)).
    { intros [|]; [exists [], (d :: D); split; reflexivity|].
      change (slen [d]) with 1.
      destruct (IH (i + 1) (h * base + v) i) as (ds & e & -> & E). rewrite E.
      exists (d :: ds), e. split; [reflexivity|]. cbn [horner]. rewrite Hv. f_equal. apply last_i_cons. }
    destruct neg; cbn [sgn] in *.
    + replace (wrap64 (wrap64 (wrap64 (- h) * base) - v)) with (wrap64 (- (h * base + v)))
        by (rewrite <- W; f_equal; lia). apply X.
    + rewrite W. apply X.
Qed.

Lemma last_i_yes ds : last_i 0 (-1) ds = slen ds - 1.
Proof. unfold last_i. destruct ds; [reflexivity|lia]. Qed.

Lemma read_uint_mod s a b base bits v s' : at_split s a b ->
  read_uint base bits s = Ok ((v, None), s') ->
  exists ds t, b = ds ++ t /\ ds <> [] /\ Forall (is_digit base) ds /\
    pos (sc s') = slen a + slen ds /\ v = horner base 0 ds mod 2 ^ 64.
Proof.
  intros H. unfold read_uint. destruct (char_func base) as [cf|] eqn:Hc; [|discriminate].
  destruct (uint_max bits) as [mx|]; [|discriminate].
  pose proof (char_func_some _ _ Hc) as B.
  tail_of H. destruct (digit_prefix base b) as (D & t & -> & F & N).
  destruct (chunked_exists t) as [lt Ct].
  rewrite (range_str_chunked _ _ (chunked_digits _ _ _ _ B F Ct)).
  destruct (uint_loop_wrap base cf mx t lt D Hc N Ct F 0 0 (-1)) as (ds & e & -> & E).
  change (0 mod 2 ^ 64) with 0 in E. rewrite E, last_i_yes.
  destruct (slen ds - 1 =? -1) eqn:Z0; [intros K; discriminate K|].
  replace (slen ds - 1 + 1) with (slen ds) by lia. rewrite <- app_assoc in H.
  rewrite (bind_ok _ _ _ _ _ (move_fwd _ _ _ _ H)). unfold ret. intros [= <- <-].
  exists ds, (e ++ t). rewrite <- app_assoc. split; auto.
  split; [intros ->; discriminate|]. split; [apply Forall_app in F; apply F|].
  cbn [moveto sc pos]. rewrite (at_split_pos _ _ _ H). auto.
Qed.

Lemma read_int_mod s a b base bits v s' : at_split s a b ->
  read_int base bits s = Ok ((v, None), s') ->
  exists neg sg ds t, sign_split b neg sg (ds ++ t) /\ ds <> [] /\ Forall (is_digit base) ds /\
    pos (sc s') = slen a + slen sg + slen ds /\
    - 2 ^ 63 <= v < 2 ^ 63 /\ v mod 2 ^ 64 = sgn neg (horner base 0 ds) mod 2 ^ 64.
Proof.
  intros H. unfold read_int. destruct (char_func base) as [cf|] eqn:Hc; [|discriminate].
  destruct (int_bounds bits) as [[mn mx]|] eqn:Hb; [|discriminate].
  pose proof (char_func_some _ _ Hc) as B.
  destruct (sign_split_exists b) as (neg & sg & u & S).
  destruct (read_sign s a b neg sg u H S) as (s1 & H1 & Ef & Et & _ & Hk).
  unfold bind at 1, mark, gets. rewrite Hk. clear Hk. tail_of H1.
  destruct (digit_prefix base u) as (D & t & -> & F & N).
  destruct (chunked_exists t) as [lt Ct].
  rewrite (range_str_chunked _ _ (chunked_digits _ _ _ _ B F Ct)).
  destruct (int_loop_wrap base cf mn mx neg t lt D Hc N Ct F 0 0 (-1)) as (ds & e & -> & E).
  replace (wrap64 (sgn neg 0)) with 0 in E by (destruct neg; reflexivity). rewrite E, last_i_yes.
  destruct (slen ds - 1 =? -1) eqn:Z0.
  { rewrite (bind_ok _ _ _ _ _ (to_marker_nonneg (pos (sc s)) s1 ltac:(rewrite (at_split_pos _ _ _ H); apply slen_nonneg))).
    intros K. discriminate K. }
  replace (slen ds - 1 + 1) with (slen ds) by lia. rewrite <- app_assoc in H1.
  rewrite (bind_ok _ _ _ _ _ (move_fwd _ _ _ _ H1)). unfold ret. intros [= <- <-].
  exists neg, sg, ds, (e ++ t). rewrite app_assoc. split; auto.
  split; [intros ->; discriminate|]. split; [apply Forall_app in F; apply F|].
  cbn [moveto sc pos]. rewrite (at_split_pos _ _ _ H1), slen_app. split; [lia|].
  split; [|apply wrap64_mod]. unfold wrap64.
  match goal with |- context [?x mod ?y] => pose proof (Z.mod_pos_bound x y ltac:(lia)) end. lia.
Qed.

(* ------------------------------------------------------------ C18, C19, C22 restated *)

Lemma int_split_exists base bits b : is_base base -> is_size bits ->
  exists neg sg t ds, sign_split b neg sg t /\ longest_digits base (fun v => int_fits bits (sgn neg v)) t ds.
Proof.
  intros B Sz. destruct (sign_split_exists b) as (neg & sg & t & S).
  destruct (longest_digits_exists base (fun v => int_fits bits (sgn neg v))) with (t := t) as [ds L]; auto.
  - intros v. unfold int_fits. destruct (Z_le_dec (- 2 ^ (bits - 1)) (sgn neg v)), (Z_lt_dec (sgn neg v) (2 ^ (bits - 1))); [left|right|right|right]; lia.
  - unfold int_fits. replace (sgn neg 0) with 0 by (destruct neg; reflexivity).
    destruct Sz as [->|[->|[->| ->]]]; lia.
  - exists neg, sg, t, ds. auto.
Qed.

Lemma uint_split_exists base bits b : is_base base -> is_size bits ->
  exists ds, longest_digits base (uint_fits bits) b ds.
Proof.
  intros B Sz. apply longest_digits_exists; auto.
  - intros v. unfold uint_fits. destruct (Z_le_dec 0 v), (Z_lt_dec v (2 ^ bits)); [left|right|right|right]; lia.
  - unfold uint_fits. destruct Sz as [->|[->|[->| ->]]]; lia.
Qed.

Lemma uint_max_size bits mx : uint_max bits = Some mx -> is_size bits.
Proof.
  unfold uint_max, is_size. intros H.
  repeat match type of H with context [if ?c then _ else _] => destruct c eqn:? end; try lia. discriminate.
Qed.
Lemma int_bounds_size bits r : int_bounds bits = Some r -> is_size bits.
Proof.
  unfold int_bounds, is_size. intros H.
  repeat match type of H with context [if ?c then _ else _] => destruct c eqn:? end; try lia. discriminate.
Qed.

Lemma read_uint_range base bits s : in_text s ->
  exists v e s', read_uint base bits s = Ok ((v, e), s') /\
    (e = None -> is_base base /\ is_size bits /\ uint_fits bits v) /\
    (e <> None -> s' = s).
Proof.
  intros I. destruct (read_uint_total base bits s I) as (v & e & s' & E & _ & _ & _ & R & V & W).
  exists v, e, s'. split; auto. split; auto. intros N. destruct (W N) as [Hb [mx M]].
  pose proof (uint_max_size _ _ M) as Sz. split; [auto|]. split; [auto|].
  destruct (uint_max_fits bits Sz) as (mx' & M' & Ft). rewrite M in M'. injection M' as <-.
  pose proof (V mx M). apply Ft; lia.
Qed.
Lemma read_int_range base bits s : in_text s ->
  exists v e s', read_int base bits s = Ok ((v, e), s') /\
    (e = None -> is_base base /\ is_size bits /\ int_fits bits v) /\
    (e <> None -> pos (sc s') = pos (sc s) /\ full (sc s') = full (sc s)).
Proof.
  intros I. destruct (read_int_total base bits s I) as (v & e & s' & E & _ & Ef & _ & R & V & W).
  exists v, e, s'. split; auto. split; auto. intros N. destruct (W N) as [Hb [[mn mx] M]].
  pose proof (int_bounds_size _ _ M) as Sz. split; [auto|]. split; [auto|].
  destruct (int_bounds_fits bits Sz) as (mn' & mx' & M' & Ft). rewrite M in M'. injection M' as <- <-.
  apply Ft, (V mn mx M).
Qed.
Lemma read_bool_total format s : in_text s ->
  exists v e s', read_bool format s = Ok ((v, e), s') /\ (e <> None -> s' = s) /\
    (e = None -> exists l, bool_spellings format = Some l).
Proof.
  intros I. apply at_split_in_text in I as (a & b & H).
  destruct (bool_spellings format) as [l|] eqn:E.
  2:{ eexists _, _, _. split; [apply (read_bool_bad _ _ E)|]. split; [auto|discriminate]. }
  destruct (read_bool_spec s a b format l H E) as [Y N].
  assert (D : (exists x v t, In (x, v) l /\ b = x ++ t) \/ (forall x v t, In (x, v) l -> b <> x ++ t)).
  { clear. induction l as [|[x v] l IH]; [right; intros ? ? ? []|].
    destruct (has_prefix b x) eqn:P.
    - left. apply has_prefix_iff in P as [t ->]. exists x, v, t. cbn; auto.
    - destruct IH as [(x' & v' & t & I & ->)|IH]; [left; exists x', v', t; cbn; auto|].
      right. intros x' v' t [[= <- <-]|I] K.
      + assert (has_prefix b x = true) by (apply has_prefix_iff; eauto). congruence.
      + exact (IH _ _ _ I K). }
  destruct D as [(x & v & t & I & K)|D].
  - eexists _, _, _. split; [exact (Y _ _ _ I K)|]. split; [congruence|eauto].
  - eexists _, _, _. split; [exact (N D)|]. split; [auto|discriminate].
Qed.
Lemma read_rune_total s : in_text s ->
  exists v e s', read_rune s = Ok ((v, e), s') /\ (e <> None -> s' = s).
Proof.
  intros I. apply at_split_in_text in I as (a & b & H). destruct (chunked_exists b) as [l C].
  destruct l as [|[v c] l].
  - eexists _, _, _. split; [apply (read_rune_no s a b [] H C); auto|]. auto.
  - destruct (Z.eq_dec v RuneError) as [->|Nv].
    + eexists _, _, _. split; [apply (read_rune_no s a b _ H C); right; eauto|]. auto.
    + eexists _, _, _. split; [apply (read_rune_yes s a b v c l H C Nv)|]. congruence.
Qed.
Lemma rev_read_rune_total s : in_text s ->
  exists v e s', rev_read_rune s = Ok ((v, e), s') /\ (e <> None -> s' = s).
Proof.
  intros I. apply at_split_in_text in I as (a & b & H).
  destruct a as [|x a'] eqn:Ea.
  - eexists _, _, _. split; [apply (rev_read_rune_no s [] b H); auto|]. auto.
  - rewrite <- Ea in *. assert (Ne : a <> []) by (subst; discriminate). clear x a' Ea.
    destruct (last_chunk_exists a Ne) as (v & c & Lc).
    destruct (Z.eq_dec v RuneError) as [->|Nv].
    + eexists _, _, _. split; [apply (rev_read_rune_no s a b H); right; eauto|]. auto.
    + eexists _, _, _. split; [apply (rev_read_rune_yes s a b v c H Lc Nv)|]. congruence.
Qed.
