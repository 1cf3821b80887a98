(** ReaderSync.v - a read in which every Janus end follows its Janus beginning does not
    depend on the strings left by earlier reads. *)
From Verif Require Export ReaderTrans.
From Coq Require Import Lia ZifyBool.

(** Janus cells written whenever the reader succeeds. *)
Fixpoint adds (r : reader) : list nat :=
  match r with
  | RJanusBeg c _ a => c :: adds a
  | RSeq rs => flat_map adds rs
  | RNamed _ a => adds a
  | _ => []
  end.
(** Every Janus end inside [r] is for a cell in [D] or one written before in the same sequence. *)
Fixpoint clean (D : list nat) (r : reader) : bool :=
  let seqs := fix seqs (D : list nat) (rs : list reader) : bool :=
    match rs with [] => true | x :: t => clean D x && seqs (adds x ++ D) t end in
  match r with
  | RAny rs => forallb (clean D) rs
  | RSeq rs => seqs D rs
  | RSkipSeq a rs => clean D a && forallb (clean D) rs
  | RBody a b | RBodyTail a b => clean D a && clean D b
  | RAt s | RJanusBeg _ _ s | RMany s | RMap _ s | RNamed _ s | RNot s | ROpt s | RPast s
  | RTimes _ s | RTo s | RZom s | RPick _ _ s | RMonitor _ _ s | RRuleName s => clean D s
  | RJanusEnd c _ => existsb (Nat.eqb c) D
  | RWrap _ _ => false
  | _ => true
  end.
Fixpoint clean_seq (D : list nat) (rs : list reader) : bool :=
  match rs with [] => true | x :: t => clean D x && clean_seq (adds x ++ D) t end.
Lemma clean_seq_is D rs : clean D (RSeq rs) = clean_seq D rs.
Proof. cbn [clean]. revert D. induction rs as [|x t IH]; intros D; [reflexivity|]. cbn [clean_seq]. f_equal; auto. Qed.
Definition clean_env (e : env) : Prop := forall i r, r_reader (get_rule e i) = Some r -> clean [] r = true.

Definition agree (D : list nat) (s1 s2 : st) : Prop := forall c, In c D -> get_cell c (hp s1) = get_cell c (hp s2).
Notation place := (srel false false).
Definition sync {A} (D : list nat) (D' : A -> list nat) (t : bytes) (m : M A) : Prop := forall s1 s2, place t s1 s2 -> agree D s1 s2 ->
  match m s1 with
  | Ok (x, s1') => exists s2', m s2 = Ok (x, s2') /\ place t s1' s2' /\ agree (D' x) s1' s2'
  | Panic => m s2 = Panic
  | Fuel => True
  end.
Notation stay D := (fun _ => D).
Definition got (D : list nat) (r : reader) (x : option err) : list nat := match x with None => adds r ++ D | Some _ => D end.

Section Sync.
Context (t : bytes).
Lemma sync_bind {A B} D D1 D2 (m : M A) (f : A -> M B) : sync D D1 t m -> (forall x, sync (D1 x) D2 t (f x)) -> sync D D2 t (bind m f).
Proof.
  intros H1 H2 s1 s2 P Ag. specialize (H1 s1 s2 P Ag). unfold bind. destruct (m s1) as [[x s1']| |]; auto.
  - destruct H1 as (s2' & E & P' & A'). rewrite E. apply H2; auto.
  - rewrite H1. reflexivity.
Qed.
Lemma sync_weak {A} D D1 D2 (m : M A) : sync D D1 t m -> (forall x, incl (D2 x) (D1 x)) -> sync D D2 t m.
Proof.
  intros H I s1 s2 P Ag. specialize (H s1 s2 P Ag). destruct (m s1) as [[x s1']| |]; auto. destruct H as (s2' & E & P' & A').
  exists s2'. split; auto. split; auto. intros c C. apply A', I, C.
Qed.
Lemma sync_ret {A} D D' (x : A) : D' x = D -> sync D D' t (ret x).
Proof. intros E s1 s2 P Ag. exists s2. rewrite E. auto. Qed.
Lemma sync_panic {A} D D' : sync D D' t (@panic A).
Proof. intros s1 s2 P Ag. reflexivity. Qed.
Lemma sync_fuel {A} D D' : sync D D' t (@out_of_fuel A).
Proof. intros s1 s2 P Ag. exact I. Qed.

(** Operations that leave the heap's cells alone. *)
Definition quiet {A} (m : M A) : Prop := forall s x s', m s = Ok (x, s') -> h_cells (hp s') = h_cells (hp s).
Lemma sync_quiet {A} D (m : M A) : sim false false t m m -> quiet m -> sync D (stay D) t m.
Proof.
  intros H Q s1 s2 P Ag. specialize (H s1 s2 P). destruct (m s1) as [[x s1']| |] eqn:E1; auto.
  destruct H as (s2' & E & P'). exists s2'. split; auto. split; auto. intros c C. unfold get_cell. rewrite (Q _ _ _ E1), (Q _ _ _ E). apply Ag; auto.
Qed.
Lemma quiet_ret {A} (x : A) : quiet (ret x). Proof. intros s y s' H. injection H as _ <-. auto. Qed.
Lemma quiet_panic {A} : quiet (@panic A). Proof. intros s y s' H. discriminate. Qed.
Lemma quiet_bind {A B} (m : M A) (f : A -> M B) : quiet m -> (forall x, quiet (f x)) -> quiet (bind m f).
Proof. intros H1 H2 s x s' H. apply bind_inv in H as (y & s1 & E1 & E2). rewrite (H2 _ _ _ _ E2). eauto. Qed.
Lemma quiet_gets {A} (f : st -> A) : quiet (gets f). Proof. intros s x s' H. injection H as _ <-. auto. Qed.
Lemma quiet_moveto p s : h_cells (hp (moveto p s)) = h_cells (hp s).
Proof. unfold moveto, track. cbn. destruct (trk (sc s)); reflexivity. Qed.
Lemma quiet_marker m : quiet (to_marker m).
Proof. intros s x s' H. unfold to_marker in H. destruct (_ && _); injection H as _ <-; [apply quiet_moveto || auto|apply quiet_moveto || auto]. Qed.
Lemma quiet_move d : quiet (move d).
Proof. intros s x s' H. unfold move in H. destruct (_ || _); injection H as _ <-; [auto|apply quiet_moveto]. Qed.
Lemma quiet_tail : quiet s_tail.
Proof. intros s x s' H. unfold s_tail in H. destruct (_ && _); [injection H as _ <-; auto|discriminate]. Qed.
Lemma quiet_get_tok k : quiet (get_tok k).
Proof. intros s x s' H. unfold get_tok in H. destruct (_ && _); [injection H as _ <-; auto|discriminate]. Qed.
Ltac qm := repeat first [ apply quiet_ret | apply quiet_panic | apply quiet_tail | apply quiet_move | apply quiet_marker | apply quiet_get_tok | apply quiet_gets
  | match goal with |- quiet (if ?c then _ else _) => destruct c end
  | match goal with |- quiet (match ?c with _ => _ end) => destruct c end
  | (apply quiet_bind; [|intros]) ].
Lemma quiet_if_str x : quiet (if_str x). Proof. unfold if_str. qm. Qed.
Lemma quiet_if_any x : quiet (if_any x). Proof. induction x; cbn [if_any]; [qm|]. apply quiet_bind; [apply quiet_if_str|]. intros []; [qm|auto]. Qed.
Lemma quiet_if_rune x : quiet (if_rune x). Proof. unfold if_rune. qm. Qed.
Lemma quiet_if_any_rune x : quiet (if_any_rune x).
Proof. unfold if_any_rune. induction (runes x); cbn [if_any_rune_loop]; [qm|]. apply quiet_bind; [apply quiet_if_rune|]. intros []; [qm|auto]. Qed.
Lemma quiet_if_between a b : quiet (if_between a b). Proof. unfold if_between. qm. Qed.
Lemma quiet_if_match f : quiet (if_match f). Proof. unfold if_match. qm. Qed.
Lemma quiet_if_fold {L : GoLib} x : quiet (if_fold x). Proof. unfold if_fold. qm. Qed.
Lemma quiet_runes1 : quiet (move_runes 1). Proof. unfold move_runes. cbn [Z.ltb Z.compare]. qm. Qed.
Lemma quiet_bany l : quiet (between_any_loop l).
Proof. induction l as [|[a b] l IH]; cbn [between_any_loop]; [qm|]. apply quiet_bind; [apply quiet_if_between|]. intros []; [qm|auto]. Qed.
Lemma quiet_error w : quiet (error_for w). Proof. unfold error_for, mark. qm. Qed.
Lemma quiet_error_if ok w : quiet (error_if_false ok w). Proof. unfold error_if_false. destruct ok; [qm|apply quiet_error]. Qed.
Lemma quiet_read_bool f : quiet (read_bool f).
Proof. unfold read_bool, read_bool_strs. repeat first [apply quiet_if_any|apply quiet_if_str|apply quiet_error|progress qm]. Qed.
Lemma quiet_read_int a b : quiet (read_int a b).
Proof. unfold read_int, mark. repeat first [apply quiet_if_rune|apply quiet_error|progress qm]. Qed.
Lemma quiet_read_uint a b : quiet (read_uint a b).
Proof. unfold read_uint, mark. repeat first [apply quiet_if_rune|apply quiet_error|progress qm]. Qed.

Lemma sync_mark {B} D D' (f : Z -> M B) : (forall m, 0 <= m <= slen t -> sync D D' t (f m)) -> sync D D' t (bind mark f).
Proof.
  intros H s1 s2 R Ag. unfold bind, mark, gets. pose proof R as (R1 & R2 & R3 & R4 & _). rewrite <- R3. apply H; auto. destruct R4. subst t. auto.
Qed.
Lemma sync_marker D m : 0 <= m <= slen t -> sync D (stay D) t (to_marker m).
Proof. intros H. apply sync_quiet; [apply sim_marker; auto|apply quiet_marker]. Qed.
Lemma sync_at_end D : sync D (stay D) t at_end.
Proof. apply sync_quiet; [apply sim_at_end|unfold at_end; qm]. Qed.
Lemma sync_error D w : sync D (stay D) t (error_for w).
Proof. apply sync_quiet; [apply sim_error_for|apply quiet_error]. Qed.
Lemma sync_error_if D ok w : sync D (stay D) t (error_if_false ok w).
Proof. apply sync_quiet; [apply sim_error_if_false|apply quiet_error_if]. Qed.
Lemma sync_runes1 D : sync D (stay D) t (move_runes 1).
Proof. apply sync_quiet; [apply sim_runes1|apply quiet_runes1]. Qed.
Lemma sync_get_tok D k : sync D (stay D) t (get_tok k).
Proof. apply sync_quiet; [apply sim_get_tok|apply quiet_get_tok]. Qed.
Lemma sync_if {A} D D' (c : bool) (a b : M A) : sync D D' t a -> sync D D' t b -> sync D D' t (if c then a else b).
Proof. destruct c; auto. Qed.
Lemma sync_heap D D' f : (forall h, h_cells (f h) = h_cells h) -> incl D' D -> sync D (stay D') t (modh f).
Proof.
  intros H I s1 s2 R Ag. unfold modh, modify. eexists. split; [reflexivity|]. split.
  - destruct R as (R1 & R2 & R3 & R4 & R5 & R6). split; [exact R1|]. split; [exact R2|]. split; [exact R3|]. split; [exact R4|]. split; [exact R5|]. split; discriminate.
  - intros c C. unfold get_cell. cbn. rewrite !H. apply Ag, I, C.
Qed.
Lemma sync_cell D c v : sync D (stay (c :: D)) t (modh (put_cell c v)).
Proof.
  intros s1 s2 R Ag. unfold modh, modify. eexists. split; [reflexivity|]. split.
  - destruct R as (R1 & R2 & R3 & R4 & R5 & R6). split; [exact R1|]. split; [exact R2|]. split; [exact R3|]. split; [exact R4|]. split; [exact R5|]. split; discriminate.
  - intros k C. unfold get_cell, put_cell. cbn [hp with_heap h_cells set_cells]. rewrite !get_put. destruct (Nat.eqb c k) eqn:Q; auto.
    apply Nat.eqb_neq in Q. destruct C as [C|C]; [congruence|]. apply (Ag _ C).
Qed.
Lemma sync_tokenize D D1 rd : sync D D1 t rd -> sync D (fun te => D1 (snd te)) t (tokenize_use rd).
Proof.
  intros H. unfold tokenize_use. apply sync_mark. intros m Hm. eapply sync_bind; [exact H|]. intros [x|].
  - eapply sync_bind; [apply sync_marker; auto|]. intros u. apply sync_mark. intros q Hq. apply sync_ret. auto.
  - apply sync_mark. intros q Hq. apply sync_ret. auto.
Qed.

Definition keeps (D : list nat) (m : M (option err)) : Prop := sync D (stay D) t m.
Lemma keeps_any D rds : Forall (keeps D) rds -> forall m errs, 0 <= m <= slen t -> keeps D (any_loop rds m errs).
Proof.
  induction 1; intros m errs Hm; cbn [any_loop].
  - eapply sync_bind; [apply sync_marker; auto|]. intros. apply sync_ret. auto.
  - eapply sync_bind; [apply H|]. intros [y|]; [apply IHForall; auto|apply sync_ret; auto].
Qed.
Lemma keeps_skip D sk rds : keeps D sk -> Forall (keeps D) rds -> forall x, keeps D (skip_loop sk rds x).
Proof.
  intros Hs. induction 1; intros x'; cbn [skip_loop]; [apply sync_ret; auto|]. destruct x'; [apply sync_ret; auto|].
  eapply sync_bind; [apply H|]. intros [y|]; [apply IHForall|]. eapply sync_bind; [apply Hs|]. intros z. apply IHForall.
Qed.
Lemma keeps_rep D n rd : keeps D rd -> sync D (stay D) t (rep_loop n rd).
Proof. intros H. induction n; cbn [rep_loop]; [apply sync_fuel|]. eapply sync_bind; [apply H|]. intros [y|]; [apply sync_ret; auto|auto]. Qed.
Lemma keeps_times D n rd : keeps D rd -> keeps D (times_loop n rd).
Proof. intros H. induction n; cbn [times_loop]; [apply sync_ret; auto|]. eapply sync_bind; [apply H|]. intros [y|]; [apply sync_ret; auto|auto]. Qed.
Lemma keeps_past D n rd : keeps D rd -> sync D (stay D) t (past_loop n rd).
Proof.
  intros H. induction n; cbn [past_loop]; [apply sync_fuel|]. eapply sync_bind; [apply sync_at_end|]. intros [|]; [apply sync_ret; auto|].
  eapply sync_bind; [apply H|]. intros [y|]; [|apply sync_ret; auto]. eapply sync_bind; [apply sync_runes1|]. intros u'. auto.
Qed.
Lemma keeps_to D n rd : keeps D rd -> sync D (stay D) t (to_loop n rd).
Proof.
  intros H. induction n; cbn [to_loop]; [apply sync_fuel|]. apply sync_mark. intros m Hm. eapply sync_bind; [apply H|]. intros [y|].
  - eapply sync_bind; [apply sync_runes1|]. intros [|]; [auto|apply sync_ret; auto].
  - eapply sync_bind; [apply sync_marker; auto|]. intros u'. apply sync_ret; auto.
Qed.
End Sync.

Lemma sync_on_sub t D str rd : slen str < 2 ^ 63 -> keeps str D rd -> sync D (stay D) t (on_sub str rd).
Proof.
  intros Hs H s1 s2 R Ag. unfold on_sub.
  assert (F : sync D (stay D) str (let* e := use rd in let* fin := at_end in ret (e, fin))).
  { eapply sync_bind with (D1 := stay D).
    - unfold use. apply sync_mark. intros m Hm. eapply sync_bind; [apply H|]. intros [x|]; [|apply sync_ret; auto].
      eapply sync_bind; [apply sync_marker; auto|]. intros u'. apply sync_ret; auto.
    - intros x. eapply sync_bind; [apply sync_at_end|]. intros. apply sync_ret. auto. }
  assert (P : place str (mkSt (new_scanner str) (hp s1)) (mkSt (new_scanner str) (hp s2))).
  { split; [reflexivity|]. split; [reflexivity|]. split; [reflexivity|]. split; [split; [cbn; pose proof (slen_nonneg str); lia|exact Hs]|].
    split; [discriminate|]. split; discriminate. }
  specialize (F _ _ P Ag). match type of F with match ?a with _ => _ end => destruct a as [[x s']| |] end; auto.
  - destruct F as (s2' & E & _ & A'). rewrite E. eexists. split; [reflexivity|]. split; [|exact A'].
    destruct R as (R1 & R2 & R3 & R4 & R5 & R6). split; [exact R1|]. split; [exact R2|]. split; [exact R3|]. split; [exact R4|]. split; [discriminate|]. split; discriminate.
  - rewrite F. reflexivity.
Qed.
Lemma keeps_body t D n m b tl back : 0 <= m <= slen t -> (forall str, slen str < 2 ^ 63 -> keeps str D b) -> keeps t D tl ->
  sync D (stay D) t (body_loop n m b tl back).
Proof.
  intros Hm H H'. induction n; cbn [body_loop]; [apply sync_fuel|]. eapply sync_bind; [apply sync_at_end|]. intros [|]; [apply sync_ret; auto|].
  apply sync_mark. intros u Hu. eapply sync_bind; [apply H'|]. intros [y|].
  - eapply sync_bind; [apply sync_runes1|]. intros u'. auto.
  - intros s1 s2 R Ag. pose proof (sync_get_tok t D (make_token m u) s1 s2 R Ag) as G. destruct (get_tok (make_token m u) s1) as [[str s1']| |] eqn:E1.
    2:{ unfold bind at 1. rewrite E1. unfold bind. rewrite G. reflexivity. }
    2:{ unfold bind at 1. rewrite E1. exact I. }
    destruct G as (s2' & E2 & R' & Ag'). rewrite (bind_ok _ _ _ _ _ E1), (bind_ok _ _ _ _ _ E2).
    assert (Hs : slen str < 2 ^ 63).
    { unfold get_tok in E1. destruct (_ && _) eqn:C; [|discriminate]. injection E1 as <- _.
      destruct R as (R1 & _ & _ & [_ R4] & _). rewrite slen_slice; lia. }
    refine ((_ : sync D (stay D) t _) s1' s2' R' Ag'). eapply sync_bind; [apply sync_on_sub; auto|].
    intros [[x|] fin]; cbn [fst snd]; [apply sync_ret; auto|]. destruct fin; cbn [negb]; [|apply sync_ret; auto].
    destruct back; [|apply sync_ret; auto]. eapply sync_bind; [apply sync_marker; auto|]. intros. apply sync_ret; auto.
Qed.

Lemma got_incl D r x : incl D (got D r x).
Proof. destruct x; cbn; [apply incl_refl|apply incl_appr, incl_refl]. Qed.
Lemma clean_incl r : forall D D', incl D D' -> clean D r = true -> clean D' r = true.
Proof.
  revert r. refine (reader_ind' _ _ _ _ _ _ _ _ _ _ _ _ _ _ _ _ _ _ _ _ _ _ _ _ _ _ _ _ _ _ _ _ _ _ _ _ _).
  1:{ intros rs H D D' I. cbn [clean]. rewrite !forallb_forall. intros C x X. rewrite Forall_forall in H. eauto. }
  1:{ intros rs H D D' I. rewrite !clean_seq_is. revert D D' I. induction H; intros D D' I; cbn [clean_seq]; auto.
      rewrite !andb_true_iff. intros [C1 C2]. split; [eauto|]. eapply IHForall; [|eauto]. apply incl_app; [apply incl_appl, incl_refl|apply incl_appr; auto]. }
  1:{ intros a rs Ha H D D' I. cbn [clean]. rewrite !andb_true_iff, !forallb_forall. rewrite Forall_forall in H. intros [C1 C2]. split; eauto. }
  all: intros; cbn [clean] in *; rewrite ?andb_true_iff in *; auto; try (split; firstorder; fail); eauto.
  rewrite existsb_exists in *. firstorder.
Qed.

Section Read.
Context {L : GoLib} (e : env) (He : clean_env e).
Ltac quietly := apply sync_quiet; [first [apply sim_if_any_rune|apply sim_at_end|apply sim_if_between|apply sim_bany|apply sim_read_bool|apply sim_if_fold|apply sim_read_int
  |apply sim_read_uint|apply sim_if_str|apply sim_if_match|apply sim_if_rune|apply sim_tail|apply sim_move]
  |first [apply quiet_if_any_rune|apply quiet_gets|apply quiet_if_between|apply quiet_bany|apply quiet_read_bool|apply quiet_if_fold|apply quiet_read_int
  |apply quiet_read_uint|apply quiet_if_str|apply quiet_if_match|apply quiet_if_rune|apply quiet_tail|apply quiet_move]].
Theorem read_sync n : forall r D t, clean D r = true -> sync D (got D r) t (read n e r).
Proof.
  induction n as [|n IH]; intros r D t C; [apply sync_fuel|].
  assert (K : forall r D t, clean D r = true -> keeps t D (read n e r)) by (intros; eapply sync_weak; [apply IH; auto|apply got_incl]).
  assert (KL : forall rs, forallb (clean D) rs = true -> Forall (keeps t D) (map (read n e) rs)).
  { intros rs H. rewrite forallb_forall in H. apply Forall_map, Forall_forall. auto. }
  assert (Rule : forall i r', r_reader (get_rule e i) = Some r' -> keeps t D (read n e r')).
  { intros i r' Q. apply K. eapply clean_incl; [|eapply He; eauto]. intros x []. }
  assert (Kp : adds r = [] -> keeps t D (read (S n) e r) -> sync D (got D r) t (read (S n) e r)).
  { intros Q H. eapply sync_weak; [exact H|]. intros [x|]; cbn; [|rewrite Q]; apply incl_refl. }
  destruct r; cbn [clean] in C; rewrite ?andb_true_iff in C; try (apply Kp; [reflexivity|]); unfold keeps; cbn [read].
  all: try (repeat first
    [ quietly | apply K; auto; fail | (apply sync_ret; reflexivity) | apply sync_panic | apply sync_error_if | apply sync_error | (apply sync_marker; lia) | apply sync_runes1 | (apply sync_heap; [reflexivity|apply incl_refl])
    | (apply keeps_rep; apply K; auto) | (apply keeps_past; apply K; auto) | (apply keeps_to; apply K; auto) | (apply keeps_times; apply K; auto)
    | (apply keeps_any; [apply KL; auto|lia]) | (apply keeps_body; [lia|intros; apply K; tauto|apply K; tauto])
    | (apply sync_mark; intros) | (eapply sync_bind; [|intros; cbv beta])
    | apply sync_if
    | match goal with |- sync _ _ _ (match ?x with _ => _ end) => destruct x eqn:? end
    ]; fail).
  - (* JanusBeg *) eapply sync_bind; [apply sync_tokenize, IH; auto|]. intros [tk [y|]]; cbn [fst snd]; [apply sync_ret; reflexivity|].
    eapply sync_bind; [apply sync_get_tok|]. intros str. eapply sync_bind; [apply sync_cell|]. intros u'. apply sync_ret. reflexivity.
  - (* JanusEnd *) apply existsb_exists in C as (c & Cd & Q). apply Nat.eqb_eq in Q as <-.
    intros s1 s2 P Ag.
    assert (G : forall (k : bytes -> M (option err)) s, bind (gets (fun s => get_cell cell (hp s))) k s = k (get_cell cell (hp s)) s) by reflexivity.
    rewrite !G, <- (Ag _ Cd). clear G.
    refine ((_ : sync D (stay D) t _) s1 s2 P Ag). eapply sync_bind; [quietly|]. intros ok. eapply sync_bind; [apply sync_error_if|].
    intros [y|]; [apply sync_ret; reflexivity|]. eapply sync_bind; [apply sync_cell|]. intros u'.
    eapply sync_weak with (D1 := stay (cell :: D)); [apply sync_ret; reflexivity|]. intros _. apply incl_tl, incl_refl.
  - (* Map *) eapply sync_bind; [apply sync_tokenize, K; auto|]. intros [tk [y|]]; cbn [fst snd]; [apply sync_ret; reflexivity|].
    eapply sync_bind; [apply sync_heap; [reflexivity|apply incl_refl]|]. intros u'. apply sync_ret. reflexivity.
  - (* Named *) eapply sync_weak; [apply IH; auto|]. intros [x|]; apply incl_refl.
  - (* Seq *) apply sync_mark. intros m Hm. fold (clean D (RSeq rs)) in C. change (clean D (RSeq rs) = true) in C. rewrite clean_seq_is in C. clear Kp KL Rule.
    eapply sync_weak with (D1 := fun x => match x with None => flat_map adds rs ++ D | Some _ => D end); [|intros [x|]; apply incl_refl].
    revert D C. induction rs as [|r rs IHrs]; intros D C; cbn [map seq_loop]; [apply sync_ret; reflexivity|].
    cbn [clean_seq] in C. apply andb_true_iff in C as [C1 C2]. eapply sync_bind; [apply IH; exact C1|]. intros [y|].
    + eapply sync_bind; [apply sync_marker; auto|]. intros u'. apply sync_ret. reflexivity.
    + eapply sync_weak; [apply IHrs; exact C2|]. intros [x|]; cbn [flat_map]; [apply incl_appr, incl_refl|].
      unfold got. intros z Z. rewrite !in_app_iff in *. tauto.
  - (* SkipSeq *) unfold skip_seq. apply sync_mark. intros m Hm. eapply sync_bind; [apply K; tauto|]. intros y.
    eapply sync_bind; [apply keeps_skip; [apply K; tauto|apply KL; tauto]|]. intros [z|]; [|apply sync_ret; reflexivity].
    eapply sync_bind; [apply sync_marker; auto|]. intros u'. apply sync_ret. reflexivity.
  - discriminate.
  - (* Pick *) eapply sync_bind; [apply sync_tokenize, K; auto|]. intros [tk [y|]]; cbn [fst snd]; [apply sync_ret; reflexivity|].
    eapply sync_bind; [apply sync_heap; [reflexivity|apply incl_refl]|]. intros u'. apply sync_ret. reflexivity.
  - (* Monitor *) intros s1 s2 P Ag. unfold mark, gets, modh, modify, bind.
    set (s1a := with_heap _ s1). set (s2a := with_heap _ s2).
    assert (P' : place t s1a s2a).
    { destruct P as (R1 & R2 & R3 & R4 & R5 & R6). split; [exact R1|]. split; [exact R2|]. split; [exact R3|]. split; [exact R4|]. split; [discriminate|]. split; discriminate. }
    pose proof (K r D t C s1a s2a P' Ag) as X. destruct (read n e r s1a) as [[y s1']| |]; auto.
    + destruct X as (s2' & E2 & (R1 & R2 & R3 & R4 & R5 & R6) & Ag'). rewrite E2. eexists. split; [reflexivity|]. split; [|exact Ag'].
      split; [exact R1|]. split; [exact R2|]. split; [exact R3|]. split; [exact R4|]. split; [discriminate|]. split; discriminate.
    + rewrite X. reflexivity.
  - (* Rule *) destruct (r_reader (get_rule e i)) as [r'|] eqn:Q; [|apply sync_panic]. apply (Rule i r' Q).
  - (* Grammar *) destruct (r_reader (get_rule e i)) as [r'|] eqn:Q; [|apply sync_panic].
    eapply sync_bind; [apply (Rule i r' Q)|]. intros [y|]; apply sync_ret; reflexivity.
Qed.

(** Two reads at the same place of the same text. *)
Theorem clean_reads r s1 s2 x s1' : clean [] r = true -> in_text s1 -> full (sc s1) = full (sc s2) -> pos (sc s1) = pos (sc s2) -> reads e r s1 x s1' ->
  exists s2', reads e r s2 x s2' /\ full (sc s1') = full (sc s2') /\ pos (sc s1') = pos (sc s2').
Proof.
  intros C I F P [n R].
  assert (S : place (full (sc s1)) s1 s2).
  { split; auto. split; auto. split; auto. split; auto. split; [discriminate|]. split; discriminate. }
  pose proof (read_sync n r [] _ C s1 s2 S) as X. rewrite R in X. destruct X as (s2' & E2 & (A & B & D & _) & _); [intros c []|].
  exists s2'. split; [exists n; auto|]. split; congruence.
Qed.
Theorem clean_panics r s1 s2 : clean [] r = true -> in_text s1 -> full (sc s1) = full (sc s2) -> pos (sc s1) = pos (sc s2) -> panics e r s1 -> panics e r s2.
Proof.
  intros C I F P [n R].
  assert (S : place (full (sc s1)) s1 s2).
  { split; auto. split; auto. split; auto. split; auto. split; [discriminate|]. split; discriminate. }
  pose proof (read_sync n r [] _ C s1 s2 S) as X. rewrite R in X. exists n. apply X. intros c [].
Qed.
End Read.
