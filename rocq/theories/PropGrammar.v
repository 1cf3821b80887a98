(** PropGrammar.v - C59, C60: names and rules of a grammar. *)
From Verif Require Import GrammarFacts ExKit Json.
From Coq Require Import Lia ZifyBool.

(** C59.  A rule name: an ASCII letter, followed by letters, digits and + - . _ *)
Definition ascii_letter (x : byte) : Prop := 65 <= bz x <= 90 \/ 97 <= bz x <= 122.
Definition name_char (x : byte) : Prop := ascii_letter x \/ 48 <= bz x <= 57 \/ In x (lit "+-._").
Definition rule_name (name : bytes) : Prop := exists x w, name = x :: w /\ ascii_letter x /\ Forall name_char w.
Lemma letter_is x : letter x = true <-> ascii_letter x.
Proof. unfold letter, within, ascii_letter. lia. Qed.
Lemma first_letter t : first letter t = true <-> exists x w, t = x :: w /\ ascii_letter x.
Proof.
  destruct t as [|x w]; cbn [first]; [split; [discriminate|intros (x & w & E & _); discriminate]|]. rewrite letter_is. split.
  - intros H. exists x, w. auto.
  - intros (y & w' & E & H). injection E as -> ->. auto.
Qed.
Theorem C59_check_rule_name_refuted {L : GoLib} :
  ~ (forall name, slen name < 2 ^ 63 -> (check_rule_name name = Ok None <-> rule_name name)).
Proof.
  intros H. destruct (H (lit "a b") ltac:(vm_compute; reflexivity)) as [H1 _].
  destruct H1 as (x & w & E & _ & F); [vm_compute; reflexivity|]. injection E as <- <-. inversion F as [|y w' [[A|A]|[A|A]] _]; subst.
  1-3: vm_compute in A; destruct A as [A B]; try (elim A; reflexivity); elim B; reflexivity.
  cbn in A. repeat destruct A as [A|A]; try discriminate A; exact A.
Qed.
Print Assumptions C59_check_rule_name_refuted.
(** It returns on every string, and looks at the first byte only. *)
Theorem C59_check_rule_name_exact {L : GoLib} name : slen name < 2 ^ 63 ->
  exists x, check_rule_name name = Ok x /\ (x = None <-> exists c w, name = c :: w /\ ascii_letter c).
Proof.
  intros H. destruct (check_rule_name_runs name H) as (x & E & X). exists x. split; auto. rewrite <- first_letter, <- X.
  destruct x; cbn; split; congruence.
Qed.
Print Assumptions C59_check_rule_name_exact.
(** Missing from C59: the names rejected by the second half of the pattern. *)
Theorem C59_valid_names_accepted_partial {L : GoLib} name : slen name < 2 ^ 63 ->
  (rule_name name -> check_rule_name name = Ok None) /\
  (forall x, check_rule_name name = Ok (Some x) -> ~ rule_name name).
Proof.
  intros H. destruct (C59_check_rule_name_exact name H) as (x & E & X). split.
  - intros (c & w & -> & Lc & _). rewrite E. f_equal. apply X. eauto.
  - intros y Ey (c & w & -> & Lc & _). assert (x = None) by (apply X; eauto). congruence.
Qed.
Print Assumptions C59_valid_names_accepted_partial.
Example C59_names_here {L : GoLib} :
  check_rule_name (lit "a-1.x_y+Z") = Ok None /\ check_rule_name (lit "a b!") = Ok None /\
  (exists x, check_rule_name (lit "1a") = Ok (Some x)) /\ (exists x, check_rule_name [] = Ok (Some x)) /\
  (exists x, check_rule_name [zb 0xC3; zb 0xA9] = Ok (Some x)).
Proof. repeat split; try (vm_compute; reflexivity); eexists; vm_compute; reflexivity. Qed.

(** C60.  A tag is acceptable if CheckRuleName accepts it. *)
Definition accepted {L : GoLib} (name : bytes) : Prop := check_rule_name name = Ok None.
(** The Rule fields with a non-empty tag. *)
Definition has_tag (f : field) : Prop := f_isrule f = true /\ f_tag f <> [].
(** The field with the name in its Rule: nothing else changes. *)
Definition renamed (f f' : field) : Prop :=
  f_name f' = f_name f /\ f_isrule f' = f_isrule f /\ f_exported f' = f_exported f /\ f_tag f' = f_tag f /\
  r_reader (f_rule f') = r_reader (f_rule f) /\ r_name (f_rule f') = f_tag f.
Definition after_set (f f' : field) : Prop := (has_tag f -> renamed f f') /\ (~ has_tag f -> f' = f).
Definition lengths_fit (g : gstruct) : Prop := Forall (fun f => slen (f_tag f) < 2 ^ 63) g.

Lemma tagged_is f : tagged f = true <-> has_tag f.
Proof.
  unfold tagged, has_tag. destruct (f_isrule f); cbn [andb]; [|split; [discriminate|tauto]].
  destruct (f_tag f); cbn; [split; [discriminate|tauto]|]. split; [split; [auto|discriminate]|auto].
Qed.
Lemma after_named f : after_set f (named_field f).
Proof.
  unfold after_set, named_field. rewrite <- tagged_is. destruct (tagged f); (split; [intros H|intros H]); try congruence; try discriminate.
  repeat split.
Qed.
Lemma after_map g : Forall2 after_set g (map named_field g).
Proof. induction g; constructor; auto. apply after_named. Qed.
Lemma accepted_is {L : GoLib} t : slen t < 2 ^ 63 -> (accepted t <-> first letter t = true).
Proof.
  intros F. unfold accepted. destruct (check_rule_name_runs t F) as (x & E & X). rewrite E, <- X. destruct x; cbn; split; congruence.
Qed.
Lemma pass_all {L : GoLib} g : lengths_fit g -> (forall f, In f g -> has_tag f -> accepted (f_tag f) /\ f_exported f = true) -> Forall passes g.
Proof.
  intros F H. apply Forall_forall. intros f I. unfold lengths_fit in F. rewrite Forall_forall in F. split; [exact (F f I)|].
  intros T. apply tagged_is in T. destruct (H f I T) as [A X]. split; auto. apply accepted_is; auto.
Qed.

(** All tags acceptable: every tagged Rule field gets its name, no other field changes. *)
Theorem C60_set_rule_names {L : GoLib} g : lengths_fit g ->
  (forall f, In f g -> has_tag f -> accepted (f_tag f) /\ f_exported f = true) ->
  exists g', set_rule_names g = Ok (g', None) /\ Forall2 after_set g g'.
Proof.
  intros F H. exists (map named_field g). split; [|apply after_map]. rewrite <- (app_nil_r g) at 1. rewrite set_passes by (apply pass_all; auto).
  cbn. rewrite app_nil_r. reflexivity.
Qed.
Print Assumptions C60_set_rule_names.
(** The first unacceptable tag stops it; the error names the field, the fields before it are set. *)
Theorem C60_set_rule_names_stops {L : GoLib} g1 f g2 : lengths_fit (g1 ++ f :: g2) ->
  (forall f, In f g1 -> has_tag f -> accepted (f_tag f) /\ f_exported f = true) ->
  has_tag f -> ~ accepted (f_tag f) ->
  exists g1' m, set_rule_names (g1 ++ f :: g2) = Ok (g1' ++ f :: g2, Some (EOther (lit "invalid name for " ++ f_name f ++ m))) /\
    Forall2 after_set g1 g1'.
Proof.
  intros F H T N. unfold lengths_fit in F. apply Forall_app in F as [F1 F2]. pose proof (Forall_inv F2) as F3. cbv beta in F3.
  assert (B : first letter (f_tag f) = false). { destruct (first letter (f_tag f)) eqn:Q; auto. elim N. apply accepted_is; auto. }
  apply tagged_is in T. destruct (set_invalid f g2 F3 T B) as [m E]. exists (map named_field g1), m. split; [|apply after_map].
  rewrite set_passes by (apply pass_all; auto). rewrite E. reflexivity.
Qed.
Print Assumptions C60_set_rule_names_stops.
(** A tagged Rule field that is not exported makes it panic (reflect cannot set it). *)
Theorem C60_set_rule_names_panics {L : GoLib} g1 f g2 : lengths_fit (g1 ++ f :: g2) ->
  (forall f, In f g1 -> has_tag f -> accepted (f_tag f) /\ f_exported f = true) ->
  has_tag f -> accepted (f_tag f) -> f_exported f = false -> set_rule_names (g1 ++ f :: g2) = Panic.
Proof.
  intros F H T N X. unfold lengths_fit in F. apply Forall_app in F as [F1 F2]. pose proof (Forall_inv F2) as F3. cbv beta in F3.
  rewrite set_passes by (apply pass_all; auto). apply tagged_is in T. apply accepted_is in N; auto. rewrite (set_unexported f g2 F3 T N X). reflexivity.
Qed.
Print Assumptions C60_set_rule_names_panics.
(** These are all cases. *)
Theorem C60_set_rule_names_cases {L : GoLib} g : lengths_fit g ->
  (forall f, In f g -> has_tag f -> accepted (f_tag f) /\ f_exported f = true) \/
  exists g1 f g2, g = g1 ++ f :: g2 /\ (forall f, In f g1 -> has_tag f -> accepted (f_tag f) /\ f_exported f = true) /\
    has_tag f /\ (~ accepted (f_tag f) \/ accepted (f_tag f) /\ f_exported f = false).
Proof.
  induction 1 as [|f g F _ IH]; [left; intros f []|].
  assert (D : (has_tag f -> accepted (f_tag f) /\ f_exported f = true) \/ has_tag f /\ (~ accepted (f_tag f) \/ accepted (f_tag f) /\ f_exported f = false)).
  { rewrite accepted_is by auto. rewrite <- tagged_is. destruct (tagged f); [|left; discriminate]. destruct (first letter (f_tag f)), (f_exported f); auto.
    }
  destruct D as [D|[D1 D2]].
  - destruct IH as [IH|(g1 & f1 & g2 & -> & A & B)].
    + left. intros f1 [<-|I]; auto.
    + right. exists (f :: g1), f1, g2. split; [reflexivity|]. split; auto. intros f2 [<-|I]; auto.
  - right. exists [], f, g. split; [reflexivity|]. split; [intros q []|auto].
Qed.
Print Assumptions C60_set_rule_names_cases.
Theorem C60_collect_rules g : (forall f, In f g -> f_exported f = true) ->
  collect_rules g = Ok (map f_rule (filter f_isrule g)).
Proof. apply collect_spec. Qed.
Print Assumptions C60_collect_rules.
Theorem C60_collect_rules_panics g : (exists f, In f g /\ f_exported f = false) -> collect_rules g = Panic.
Proof. apply collect_panic. Qed.
Print Assumptions C60_collect_rules_panics.
Theorem C60_collect_rules_refuted : ~ (forall g, collect_rules g = Ok (map f_rule (filter f_isrule g))).
Proof. intros H. specialize (H [mkField (lit "n") false false [] rule0]). discriminate. Qed.
Print Assumptions C60_collect_rules_refuted.
Theorem C60_check_rules {L : GoLib} rs : Forall (fun r => slen (r_name r) < 2 ^ 63) rs ->
  exists x, check_rules rs = Ok x /\ (x = None <-> Forall (fun r => accepted (r_name r) /\ r_reader r <> None) rs).
Proof.
  intros F. destruct (check_rules_spec rs F) as (x & E & X). exists x. split; auto. rewrite X. clear X E x. rewrite !Forall_forall in *.
  split; intros H r I; destruct (H r I); split; auto; apply accepted_is; auto; exact (F r I).
Qed.
Print Assumptions C60_check_rules.
(** The Must variants panic exactly on an error. *)
Theorem C60_must_check_rules {L : GoLib} rs : Forall (fun r => slen (r_name r) < 2 ^ 63) rs ->
  (must_check_rules rs = Ok tt <-> Forall (fun r => accepted (r_name r) /\ r_reader r <> None) rs) /\
  (must_check_rules rs = Panic <-> ~ Forall (fun r => accepted (r_name r) /\ r_reader r <> None) rs).
Proof.
  intros F. destruct (C60_check_rules rs F) as (x & E & X). unfold must_check_rules. rewrite E, <- X. destruct x; split; split; intros; try congruence; discriminate.
Qed.
Print Assumptions C60_must_check_rules.

(** A struct with a tagged rule, an untagged rule and another field. *)
Definition ex_struct : gstruct :=
  [mkField (lit "A") true true (lit "a") rule0; mkField (lit "N") false true (lit "n") rule0; mkField (lit "B") true true [] rule0].
Example C60_set_here {L : GoLib} : exists g', set_rule_names ex_struct = Ok (g', None) /\
  map (fun f => r_name (f_rule f)) g' = [lit "a"; []; []] /\ collect_rules g' = Ok [mkRule (lit "a") None; rule0].
Proof. eexists. split; [vm_compute; reflexivity|]. split; vm_compute; reflexivity. Qed.
Example C60_stop_here {L : GoLib} : exists m,
  set_rule_names (ex_struct ++ mkField (lit "C") true true (lit "1") rule0 :: ex_struct) =
  Ok ([mkField (lit "A") true true (lit "a") (mkRule (lit "a") None); mkField (lit "N") false true (lit "n") rule0; mkField (lit "B") true true [] rule0] ++
      mkField (lit "C") true true (lit "1") rule0 :: ex_struct, Some (EOther (lit "invalid name for C" ++ m))).
Proof. eexists. vm_compute. reflexivity. Qed.
Example C60_panic_here {L : GoLib} : set_rule_names [mkField (lit "a") true false (lit "a") rule0] = Panic.
Proof. vm_compute. reflexivity. Qed.
Example C60_json_rules {L : GoLib} : check_rules json_env = Ok None /\ length json_env = 24%nat.
Proof. split; vm_compute; reflexivity. Qed.
