(** PropLog.v - C56: Monitor and Log. *)
From Verif Require Import LogFacts ExKit.
From Coq Require Import Lia ZifyBool.
From Verif Require Import ReaderSteps ReaderScan LogFacts.

Ltac run n := exists n; vm_compute; reflexivity.
Definition inner : reader := RMonitor (lit "i") 0 (RLit []).
(** The capacity of l.Entries after the append in Enter. *)
Definition cap_entered {L : GoLib} (l : log) : nat :=
  if Nat.ltb (length (log_entries l)) (l_cap l) then l_cap l else Nat.max (S (length (log_entries l))) (lib_grow (l_cap l)).

(** C56.  [log_ok] (the entries are a slice: length <= capacity) holds of a new Log, and for
    every Log after every Read; a Read of any reader only adds entries and leaves the level. *)
Theorem C56_reads_only_add_entries {L : GoLib} e lg r s x s' : log_ok (get_log lg (hp s)) -> reads e r s x s' ->
  log_ok (get_log lg (hp s')) /\ l_level (get_log lg (hp s')) = l_level (get_log lg (hp s)) /\
  exists new, log_entries (get_log lg (hp s')) = log_entries (get_log lg (hp s)) ++ new.
Proof.
  intros Ok [n H]. destruct (read_grows lg e n r s x s' Ok H) as (A & B & _ & C & _). auto.
Qed.
Print Assumptions C56_reads_only_add_entries.
Theorem C56_new_log_ok : log_ok log0 /\ log_entries log0 = [] /\ (forall l, log_ok (log_reset l) /\ log_entries (log_reset l) = [] /\ l_level (log_reset l) = 0).
Proof.
  split; [apply log0_ok|]. split; [reflexivity|]. intros l. split; [|split; reflexivity].
  split; [reflexivity|]. split; cbn; lia.
Qed.
Print Assumptions C56_new_log_ok.
Theorem C56_unmonitored_reads_add_nothing {L : GoLib} e lg R r s x s' :
  unmonitored_rules lg R e -> unmonitored lg R r = true -> reads e r s x s' ->
  get_log lg (hp s') = get_log lg (hp s).
Proof. apply unmonitored_log. Qed.
Print Assumptions C56_unmonitored_reads_add_nothing.

(** The exact behaviour of a monitored Read: one entry with name, start and level, followed by
    those of the sub Read; its end and error are recorded if and only if all the entries
    still fit into the array in which Enter put this one. *)
Theorem C56_monitored_read_exact {L : GoLib} e info lg r s x s' :
  log_ok (get_log lg (hp s)) -> reads e (RMonitor info lg r) s x s' ->
  let l := get_log lg (hp s) in let l' := get_log lg (hp s') in
  let kept := Nat.leb (length (log_entries l')) (cap_entered l) in
  l_level l' = l_level l /\
  exists s1 s2 new, reads e r s1 x s2 /\ sc s1 = sc s /\ sc s2 = sc s' /\
    l_level (get_log lg (hp s1)) = l_level l + 1 /\
    log_entries (get_log lg (hp s1)) = log_entries l ++ [mkEntry (pos (sc s)) info (l_level l + 1) 0 None] /\
    log_entries (get_log lg (hp s2)) = log_entries (get_log lg (hp s1)) ++ new /\
    log_entries l' = log_entries l ++
      mkEntry (pos (sc s)) info (l_level l + 1) (if kept then pos (sc s') else 0) (if kept then x else None) :: new.
Proof.
  intros Ok H. apply monitor_reads in H as (s2 & [n H] & ->).
  assert (E1 : get_log lg (hp (entered lg info s)) = snd (log_enter info (pos (sc s)) (get_log lg (hp s)))) by (unfold entered; cbn [with_heap hp]; rewrite get_put_log; reflexivity).
  pose proof (enter_spec info (pos (sc s)) _ Ok) as (O1 & O2 & O3 & _). rewrite <- E1 in O1, O2, O3.
  pose proof (read_grows lg e n r _ _ _ O1 H) as G. unfold lgs in G.
  pose proof G as (G1 & _). rewrite E1 in G.
  pose proof (monitored_log info (pos (sc s)) _ _ (pos (sc s2)) x Ok G) as [Gr (new & N2 & N3)].
  assert (E3 : get_log lg (hp (exited lg info s x s2)) = log_exit (fst (log_enter info (pos (sc s)) (get_log lg (hp s)))) (pos (sc s2)) x (get_log lg (hp s2)))
    by (unfold exited; cbn [with_heap hp]; rewrite get_put_log; reflexivity).
  cbv zeta. rewrite E3. pose proof Gr as (G3 & Lv & _). split; [exact Lv|].
  exists (entered lg info s), s2, new. split; [exists n; exact H|]. split; [reflexivity|]. split; [reflexivity|].
  split; [exact O3|]. split; [exact O2|]. split; [rewrite N2, O2; reflexivity|]. rewrite N3. f_equal. f_equal.
  assert (Len : length (log_entries (get_log lg (hp s)) ++ (if Nat.leb (l_len (get_log lg (hp s2))) (l_cap (snd (log_enter info (pos (sc s)) (get_log lg (hp s)))))
     then left_at (pos (sc s2)) x (fresh_entry info (pos (sc s)) (get_log lg (hp s))) else fresh_entry info (pos (sc s)) (get_log lg (hp s))) :: new) = l_len (get_log lg (hp s2))).
  { destruct G1 as [<- _]. rewrite N2, <- app_assoc, !app_length. reflexivity. }
  rewrite Len.
  assert (Cp : l_cap (snd (log_enter info (pos (sc s)) (get_log lg (hp s)))) = cap_entered (get_log lg (hp s))).
  { unfold log_enter, cap_entered. destruct Ok as [-> _]. destruct (Nat.ltb _ _); reflexivity. }
  rewrite Cp. cbn [sc exited with_heap]. destruct (Nat.leb (l_len (get_log lg (hp s2))) (cap_entered (get_log lg (hp s)))); reflexivity.
Qed.
Print Assumptions C56_monitored_read_exact.

(** The clause on ExitAt and Error is false, whatever the growth policy of append is: the end
    of a monitored Read is lost when the entries moved to another array meanwhile. *)
Lemma inner_times {L : GoLib} k : forall s, log_ok (get_log 0 (hp s)) -> 0 <= pos (sc s) -> in_text s -> exists s',
  times_loop k (read 2 [] inner) s = Ok (None, s') /\ pos (sc s') = pos (sc s) /\ in_text s' /\
  length (log_entries (get_log 0 (hp s'))) = (length (log_entries (get_log 0 (hp s))) + k)%nat /\ log_ok (get_log 0 (hp s')).
Proof.
  induction k as [|k IH]; intros s Og P I.
  - exists s. cbn. repeat split; auto; try apply Og; try apply I.
  - assert (Rd : exists s1, read 2 [] inner s = Ok (None, s1) /\ pos (sc s1) = pos (sc s) /\ full (sc s1) = full (sc s)).
    { set (s0 := entered 0 (lit "i") s). assert (I0 : in_text s0) by exact I.
      assert (H2 : read 1 [] (RLit []) s0 = Ok (None, moveto (pos (sc s0) + 0) s0)).
      { apply at_split_in_text in I0 as (a & b & H). cbn [read]. rewrite (bind_ok _ _ _ _ _ (if_str_yes s0 a [] b H)). reflexivity. }
      exists (exited 0 (lit "i") s None (moveto (pos (sc s0) + 0) s0)). split; [|split; [cbn; lia|reflexivity]].
      unfold inner. change (read 2 [] (RMonitor (lit "i") 0 (RLit [])) s) with
        (bind (read 1 [] (RLit [])) (fun x => let* p2 := mark in modh (fun h => put_log 0 (log_exit (fst (log_enter (lit "i") (pos (sc s)) (lgs 0 s))) p2 x (get_log 0 h)) h) ;; ret x) s0).
      rewrite (bind_ok _ _ _ _ _ H2). reflexivity. }
    destruct Rd as (s1 & R1 & S1 & S2).
    destruct (C56_monitored_read_exact [] (lit "i") 0 (RLit []) s None s1 Og (ex_intro _ 2%nat R1)) as (_ & sa & sb & new & Ra & _ & Sb & La & Ea & Eb & E1).
    assert (Nw : new = []).
    { assert (U : get_log 0 (hp sb) = get_log 0 (hp sa)).
      { apply (unmonitored_log [] 0 (fun _ => false) (RLit []) sa None sb); auto. intros i r' H. discriminate. }
      rewrite U in Eb. rewrite <- (app_nil_r (log_entries _)) in Eb at 1. apply app_inv_head in Eb. auto. }
    rewrite Nw in E1.
    pose proof (C56_reads_only_add_entries [] 0 inner s None s1 Og (ex_intro _ 2%nat R1)) as (O1 & _).
    destruct (IH s1) as (s' & A & B & C & D & O); [auto|rewrite S1; auto|unfold in_text in *; rewrite S1, S2; auto|].
    exists s'. split; [cbn [times_loop]; unfold bind at 1; rewrite R1; exact A|]. split; [congruence|]. split; [auto|]. split; [|auto].
    rewrite D, E1, app_length. cbn [length]. lia.
Qed.
Theorem C56_log_refuted {L : GoLib} : ~ (forall e info r s x s', in_text s -> get_log 0 (hp s) = log0 -> reads e (RMonitor info 0 r) s x s' ->
  exists new, log_entries (get_log 0 (hp s')) = mkEntry (pos (sc s)) info 1 (pos (sc s')) x :: new).
Proof.
  intros F. pose (k := Nat.max 1 (lib_grow 0)). pose (s := mk (lit "ab") 1).
  assert (O1 : log_ok (get_log 0 (hp (entered 0 (lit "o") s)))).
  { unfold entered. cbn [with_heap hp]. rewrite get_put_log. apply enter_spec. apply log0_ok. }
  destruct (inner_times k (entered 0 (lit "o") s)) as (s2 & R2 & P2 & I2 & N2 & O2); [auto|cbn; lia|unfold in_text; cbn; lia|].
  assert (R : reads [] (RMonitor (lit "o") 0 (RTimes (Z.of_nat k) inner)) s None (exited 0 (lit "o") s None s2)).
  { apply monitor_reads. exists s2. split; [|reflexivity]. exists 3%nat. change (times_loop (Z.to_nat (Z.of_nat k)) (read 2 [] inner) (entered 0 (lit "o") s) = Ok (None, s2)).
    rewrite Nat2Z.id. exact R2. }
  destruct (C56_monitored_read_exact [] (lit "o") 0 _ s None _ log0_ok R) as (_ & sa & sb & new & _ & _ & Sb & _ & Ea & Eb & E).
  destruct (F [] (lit "o") _ s None _ ltac:(unfold in_text; cbn; lia) eq_refl R) as (new2 & E2).
  rewrite E in E2. change (log_entries (get_log 0 (hp s))) with (@nil entry) in E2. cbn [app] in E2.
  replace (Nat.leb _ _) with false in E2.
  2:{ symmetry. apply Nat.leb_gt. unfold cap_entered. change (log_entries (get_log 0 (hp s))) with (@nil entry). change (l_cap (get_log 0 (hp s))) with 0%nat. cbn [length Nat.ltb Nat.leb].
      fold k. destruct (C56_reads_only_add_entries [] 0 _ s None _ log0_ok R) as (O3 & _).
      assert (El : length (log_entries (get_log 0 (hp (exited 0 (lit "o") s None s2)))) = length (log_entries (get_log 0 (hp s2)))).
      { unfold exited. cbn [with_heap hp]. rewrite get_put_log. unfold log_exit, log_entries. cbn. rewrite !firstn_length. rewrite nth_upd.
        destruct (_ && _); rewrite ?upd_length; reflexivity. }
      rewrite El, N2. unfold entered. cbn [with_heap hp]. rewrite get_put_log.
      destruct (enter_spec (lit "o") (pos (sc s)) (lgs 0 s) log0_ok) as (_ & En & _). rewrite En, app_length. cbn. lia. }
  injection E2 as E3 _. change (sc (exited 0 (lit "o") s None s2)) with (sc s2) in E3. rewrite P2 in E3. discriminate.
Qed.
Print Assumptions C56_log_refuted.

(** With Go's growth of append (1, 2, 4, ...: a doubling policy) a second monitored Read inside
    the first loses the end of the first; with room for all entries nothing is lost. *)
Definition doubling : GoLib := {| lib_fold := fun a b => a =? b; lib_print := fun _ => true; lib_grow := fun c => (2 * c)%nat |}.
Definition roomy : GoLib := {| lib_fold := fun a b => a =? b; lib_print := fun _ => true; lib_grow := fun c => (2 * c + 8)%nat |}.
Definition seq_mon : reader := RMonitor (lit "o") 0 (RSeq [RMonitor (lit "a") 0 (RRune 0x61); RMonitor (lit "b") 0 (RRune 0x62)]).
Example C56_case_lost : exists s', reads (L := doubling) [] seq_mon (mk (lit "xab") 1) None s' /\
  log_entries (get_log 0 (hp s')) = [mkEntry 1 (lit "o") 1 0 None; mkEntry 1 (lit "a") 2 2 None; mkEntry 2 (lit "b") 2 3 None].
Proof. eexists. split; [run 4%nat|vm_compute; reflexivity]. Qed.
Example C56_case_kept : exists s', reads (L := roomy) [] seq_mon (mk (lit "xab") 1) None s' /\
  log_entries (get_log 0 (hp s')) = [mkEntry 1 (lit "o") 1 3 None; mkEntry 1 (lit "a") 2 2 None; mkEntry 2 (lit "b") 2 3 None].
Proof. eexists. split; [run 4%nat|vm_compute; reflexivity]. Qed.
Example C56_case_unmonitored : unmonitored 1 (fun _ => true) seq_mon = true /\ unmonitored 0 (fun _ => true) seq_mon = false.
Proof. split; reflexivity. Qed.
